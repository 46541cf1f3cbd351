(** Accepted constant expressions evaluate to their type (C23). *)
From Verif Require Import Base Scalar ConstInt ConstIntFacts EnumBits Expr KindSpec KindFacts Tokens Ast Parse Front FrontFacts TypeFacts ElabSpec ElabFacts ConstSpec.
From Coq Require Import Lia.
Open Scope string_scope. Open Scope Z_scope. Open Scope list_scope.

(** ** Evaluation, operator by operator *)
Lemma eval_ok chk e v k : feval chk e = Ok (Some v) -> kind_of_value v = k -> match v with CInt c => ci_ok c | _ => True end -> evaluates chk e k.
Proof. intros E K O. left. eauto. Qed.
Lemma eval_in chk e c : In c (subexprs e) -> feval chk c = Panic /\ overflows chk c -> feval chk e = Panic -> forall k, evaluates chk e k.
Proof. intros I [_ F] E k. right. split; [exact E|]. eapply over_in; eassumption. Qed.
Lemma value_int v s : kind_of_value v = IsInt s -> match v with CInt c => ci_ok c | _ => True end -> exists z, v = CInt (CI s z) /\ in_range s z = true.
Proof. destruct v as [[s' z]| |]; cbn; try discriminate. intros [= ->] O. exists z. split; [reflexivity|]. exact (proj1 (ok_range _) O). Qed.
Lemma value_bool v : kind_of_value v = IsBool -> exists b, v = CBool b.
Proof. destruct v; cbn; try discriminate. eauto. Qed.
Lemma eval_compare chk o l r kl kr : (match o with BLt | BGt | BLte | BGte | BEq | BNe => true | _ => false end) = true -> evaluates chk l kl -> evaluates chk r kr -> evaluates chk (FBin o l r) IsBool.
Proof.
  intros O [(v & Ev & Kv & _)|Pl] Hr; [|apply (eval_in chk _ l); [left; reflexivity|exact Pl|cbn [feval]; rewrite (proj1 Pl); reflexivity]].
  destruct Hr as [(w & Ew & Kw & _)|Pr]; [|apply (eval_in chk _ r); [right; left; reflexivity|exact Pr|cbn [feval]; rewrite Ev, (proj1 Pr); reflexivity]].
  destruct o; try discriminate O; (eapply eval_ok; [cbn [feval]; rewrite Ev, Ew; reflexivity|reflexivity|exact I]).
Qed.
Lemma eval_logic chk o l r : is_eager_bool o = true -> evaluates chk l IsBool -> evaluates chk r IsBool -> evaluates chk (FBin o l r) IsBool.
Proof.
  intros O [(v & Ev & Kv & _)|Pl] Hr; [|apply (eval_in chk _ l); [left; reflexivity|exact Pl|cbn [feval]; rewrite (proj1 Pl); reflexivity]].
  destruct Hr as [(w & Ew & Kw & _)|Pr]; [|apply (eval_in chk _ r); [right; left; reflexivity|exact Pr|cbn [feval]; rewrite Ev, (proj1 Pr); reflexivity]].
  destruct (value_bool _ Kv) as [a ->]. destruct (value_bool _ Kw) as [b ->].
  destruct o; try discriminate O; destruct a; (eapply eval_ok; [cbn [feval]; rewrite Ev, Ew; reflexivity|reflexivity|exact I]).
Qed.
Lemma eval_arith chk o l r s : integer_op (bop o) = true -> evaluates chk l (IsInt s) -> evaluates chk r (IsInt s) -> evaluates chk (FBin o l r) (IsInt s).
Proof.
  intros O [(v & Ev & Kv & Ov)|Pl] Hr; [|apply (eval_in chk _ l); [left; reflexivity|exact Pl|cbn [feval]; rewrite (proj1 Pl); reflexivity]].
  destruct Hr as [(w & Ew & Kw & Ow)|Pr]; [|apply (eval_in chk _ r); [right; left; reflexivity|exact Pr|cbn [feval]; rewrite Ev, (proj1 Pr); reflexivity]].
  destruct (value_int _ _ Kv Ov) as (a & -> & Ra). destruct (value_int _ _ Kw Ow) as (b & -> & Rb).
  assert (E : feval chk (FBin o l r) = cbin chk (bop o) (CInt (CI s a)) (CInt (CI s b))) by (cbn [feval]; rewrite Ev, Ew; reflexivity). rewrite cbin_int in E by exact O.
  destruct (int_fun_cases chk (bop o) s a b O Ra Rb) as [(y & Ey & Ry)|[Ey U]]; rewrite Ey in E; cbn [bind] in E.
  - eapply eval_ok; [exact E|reflexivity|]. apply ok_range. exact Ry.
  - right. split; [exact E|]. eapply over_bin; eassumption.
Qed.
Lemma eval_neg chk e s : is_signed s = true -> evaluates chk e (IsInt s) -> evaluates chk (FUn UNegate e) (IsInt s).
Proof.
  intros S [(v & Ev & Kv & Ov)|Pl]; [|apply (eval_in chk _ e); [left; reflexivity|exact Pl|cbn [feval]; rewrite (proj1 Pl); reflexivity]].
  destruct (value_int _ _ Kv Ov) as (a & -> & Ra).
  assert (E : feval chk (FUn UNegate e) = let! o := ci_neg chk (CI s a) in Ok (match o with Some c => Some (CInt c) | None => None end)) by (cbn [feval]; rewrite Ev; reflexivity).
  unfold ci_neg in E. cbn [ci_ty ci_val] in E. rewrite S in E. destruct (arith_cases chk s (- a)) as [(w & Ew & W)|(Ew & C & W)]; rewrite Ew in E; cbn [bind] in E.
  - eapply eval_ok; [exact E|reflexivity|]. apply ok_range. exact W.
  - right. split; [exact E|]. eapply over_neg; eassumption.
Qed.
Lemma eval_bitnot chk e s : evaluates chk e (IsInt s) -> evaluates chk (FUn UBitNot e) (IsInt s).
Proof.
  intros [(v & Ev & Kv & Ov)|Pl]; [|apply (eval_in chk _ e); [left; reflexivity|exact Pl|cbn [feval]; rewrite (proj1 Pl); reflexivity]].
  destruct (value_int _ _ Kv Ov) as (a & -> & Ra). eapply eval_ok; [cbn [feval]; rewrite Ev; reflexivity|reflexivity|]. apply ok_range, wrap_range.
Qed.
Lemma eval_not chk e : evaluates chk e IsBool -> evaluates chk (FUn UNot e) IsBool.
Proof.
  intros [(v & Ev & Kv & Ov)|Pl]; [|apply (eval_in chk _ e); [left; reflexivity|exact Pl|cbn [feval]; rewrite (proj1 Pl); reflexivity]].
  destruct (value_bool _ Kv) as [a ->]. eapply eval_ok; [cbn [feval]; rewrite Ev; reflexivity|reflexivity|exact I].
Qed.
Lemma eval_cast chk e s s' : evaluates chk e (IsInt s) -> evaluates chk (FCast e (FScalar s')) (IsInt (es_scalar s')).
Proof.
  intros [(v & Ev & Kv & Ov)|Pl]; [|apply (eval_in chk _ e); [left; reflexivity|exact Pl|cbn [feval]; rewrite (proj1 Pl); reflexivity]].
  destruct (value_int _ _ Kv Ov) as (a & -> & Ra). eapply eval_ok; [cbn [feval]; rewrite Ev; reflexivity|reflexivity|]. apply (cast_mod (CI s a)).
Qed.
Lemma eval_tern chk c a b k : evaluates chk c IsBool -> evaluates chk a k -> evaluates chk b k -> evaluates chk (FTern c a b) k.
Proof.
  intros [(v & Ev & Kv & _)|Pl] Ha Hb; [|apply (eval_in chk _ c); [left; reflexivity|exact Pl|cbn [feval]; rewrite (proj1 Pl); reflexivity]].
  destruct Ha as [(w & Ew & Kw & Ow)|Pr]; [|apply (eval_in chk _ a); [right; left; reflexivity|exact Pr|cbn [feval]; rewrite Ev, (proj1 Pr); reflexivity]].
  destruct Hb as [(u & Eu & Ku & Ou)|Pr]; [|apply (eval_in chk _ b); [right; right; left; reflexivity|exact Pr|cbn [feval]; rewrite Ev, Ew, (proj1 Pr); reflexivity]].
  destruct (value_bool _ Kv) as [[|] ->]; (eapply eval_ok; [cbn [feval]; rewrite Ev, Ew, Eu; reflexivity|assumption|assumption]).
Qed.
Lemma eval_member chk e m c s : evaluates chk e (IsInt s) -> evaluates chk c (IsInt s) -> evaluates chk (FMember e m c) IsBool.
Proof.
  intros [(v & Ev & Kv & Ov)|Pl] Hr; [|apply (eval_in chk _ e); [left; reflexivity|exact Pl|cbn [feval]; rewrite (proj1 Pl); reflexivity]].
  destruct Hr as [(w & Ew & Kw & Ow)|Pr]; [|apply (eval_in chk _ c); [right; left; reflexivity|exact Pr|cbn [feval]; rewrite Ev, (proj1 Pr); reflexivity]].
  destruct (value_int _ _ Kv Ov) as (a & -> & Ra). destruct (value_int _ _ Kw Ow) as (b & -> & Rb).
  eapply eval_ok; [cbn [feval]; rewrite Ev, Ew; cbn [obind]; unfold ci_bitand; rewrite biop_same; cbn [bind obind]; unfold ci_sub; rewrite biop_same; unfold arith; rewrite Z.sub_diag, in_range_0; cbn [bind obind]; reflexivity|reflexivity|exact I].
Qed.
Lemma eval_same chk e c k : feval chk e = feval chk c -> In c (subexprs e) -> evaluates chk c k -> evaluates chk e k.
Proof. intros E I [(v & Ev & K)|[P F]]; [left; exists v; rewrite E; auto|right; rewrite E; split; [exact P|eapply over_in; eassumption]]. Qed.
Lemma digits_range s neg radix : forall l acc z, in_range s acc = true -> digits_loop s neg radix acc l = Some z -> in_range s z = true.
Proof.
  induction l as [|c l IH]; intros acc z A H; cbn [digits_loop] in H; [congruence|].
  repeat match type of H with
  | match ?m with _ => _ end = _ => destruct m eqn:?; try discriminate H
  | (if ?m then _ else _) = _ => destruct m eqn:?; try discriminate H
  end; (eapply IH; [|exact H]); assumption.
Qed.
Lemma parse_ok s v c : ci_parse s v = Some c -> ci_ty c = s /\ ci_ok c.
Proof.
  intros C. assert (F : forall r l z, from_str_radix s r l = Some z -> in_range s z = true).
  { intros r l z H. unfold from_str_radix in H. repeat match type of H with
    | match ?m with _ => _ end = _ => destruct m eqn:?; try discriminate H
    | (if ?m then _ else _) = _ => destruct m eqn:?; try discriminate H
    end; (eapply digits_range; [|exact H]); apply in_range_0. }
  unfold ci_parse in C. match type of C with match ?m with _ => _ end = _ => destruct m as [z|] eqn:Z; [|discriminate C] end. injection C as <-. split; [reflexivity|]. apply ok_range. cbn.
  destruct v as [|c0 [|c1 r]]; try (eapply F; exact Z). destruct (_ && _); eapply F; exact Z.
Qed.
Lemma vkind_eqb_eq a b : vkind_eqb a b = true -> a = b.
Proof. destruct a as [[s| |]|], b as [[t| |]|]; cbn; try discriminate; try reflexivity. intros H. apply FrontFacts.scalar_eqb_eq in H. congruence. Qed.

(** ** Types *)
Section Sound.
  Variables (en : env) (n : nat) (p : prog).
  Hypothesis objects : prelude_objects en.
  Notation kind := (kind_of_type en).

  Lemma resolved_fun a b t x y : resolved a p t = Ok x -> resolved b p t = Ok y -> x = y.
  Proof. intros A B. destruct (Nat.le_ge_cases a b) as [L|L]; [apply (resolved_mono p a b t x L) in A|apply (resolved_mono p b a t y L) in B]; congruence. Qed.
  Lemma assign_kind : forall m t1 t2 a b k, assign en m p t1 t2 = Ok true -> resolved n p t1 = Ok a -> resolved n p t2 = Ok b -> kind b = Some k -> kind a = Some k.
  Proof.
    induction m as [|m IH]; intros t1 t2 a b k H Ra Rb K; [discriminate H|]. cbn [assign] in H.
    destruct (resolved m p t1) as [a'| | |] eqn:Ea; cbn [bind] in H; try discriminate H. destruct (resolved m p t2) as [b'| | |] eqn:Eb; cbn [bind] in H; try discriminate H.
    rewrite (resolved_fun _ _ _ _ _ Ea Ra) in *. rewrite (resolved_fun _ _ _ _ _ Eb Rb) in *. clear a' b' Ea Eb. pose proof (resolved_idem p n n _ _ Ra) as Ia. pose proof (resolved_idem p n n _ _ Rb) as Ib.
    assert (Rs : forall s, resolved n p (FScalar s) = Ok (FScalar s)) by (intros; destruct n; reflexivity).
    assert (F2 : forall f, b = FForeign f -> kind a = Some k).
    { intros f ->. assert (H' : match e_obj en f with FoVar s => assign en m p a (FScalar (be s)) | FoArr s => match a with FArr el _ _ => assign en m p (FScalar (be s)) el | _ => Ok false end | FoUser _ to => Ok (to a) end = Ok true) by (destruct a; exact H).
      cbn [kind_of_type] in K. destruct (e_obj en f) as [s|s|from to] eqn:Ef; [|destruct a; try discriminate H'; exact K|discriminate K]. eapply IH; [exact H'|exact Ia|apply Rs|exact K]. }
    destruct (match b with FForeign _ => true | _ => false end) eqn:Fb; [destruct b; try discriminate Fb; eapply F2; reflexivity|].
    destruct (match a with FForeign _ => true | _ => false end) eqn:Fa.
    { destruct a as [| | | | | |f| | |]; try discriminate Fa. assert (H' : match e_obj en f with FoVar s => assign en m p (FScalar (be s)) b | FoArr s => match b with FArr el _ _ => assign en m p (FScalar (be s)) el | _ => Ok false end | FoUser from _ => Ok (from b) end = Ok true) by (destruct b; try discriminate Fb; exact H).
      cbn [kind_of_type]. destruct (e_obj en f) as [s|s|from to] eqn:Ef; [|destruct b; try discriminate H'; exact K|destruct (objects _ _ _ Ef)]. apply (IH _ _ _ _ k H' (Rs (be s)) Ib K). }
    destruct a, b; try discriminate Fa; try discriminate Fb; try discriminate H; try discriminate K; try exact K.
    - apply Ok_inj in H. apply escalar_eqb_eq in H. subst. exact K.
    - apply Ok_inj in H. apply Bool.andb_true_iff in H as [H _]. apply Bool.andb_true_iff in H as [_ H]. apply escalar_eqb_eq in H. subst. exact K.
    - apply Ok_inj in H. apply Bool.andb_true_iff in H as [H _]. apply Bool.andb_true_iff in H as [_ H]. apply escalar_eqb_eq in H. subst. exact K.
  Qed.

  (** A value of kind [k] can stand where [x] is expected. *)
  Definition fits (x : ptype) (k : vkind) : Prop :=
    match x with
    | PScalar (PSome s) => k = IsInt s
    | PScalar (PDefaults _) => exists s, k = IsInt s
    | PType u => forall u0, resolved n p u = Ok u0 -> kind u0 = Some k
    | PArray _ => k = IsStr
    | _ => True
    end.
  Definition value_sound (e : fexpr) (k : vkind) : Prop := operable e = true -> shown e = Some k /\ forall chk, evaluates chk e k.
  Definition type_sound (t : fty) : Prop :=
    match t with
    | FEnum _ rep items => forall v e, mget v items = Some (Some e) -> value_sound e (IsInt (es_scalar rep))
    | FBits _ rep items => forall v e, mget v items = Some e -> value_sound e (IsInt (es_scalar rep))
    | _ => True
    end.
  Lemma resolved_sound : (forall i f, fget p i = Some f -> type_sound (f_type f)) -> forall N t t0, resolved N p t = Ok t0 -> type_sound t -> type_sound t0.
  Proof.
    intros Ts. induction N as [|N IH]; intros t t0 R Y; [destruct t; try discriminate R; apply Ok_inj in R; subst; exact Y|].
    destruct t; try (apply Ok_inj in R; subst; exact Y). cbn [resolved] in R. destruct (fget p target) as [f|] eqn:E; [|discriminate R]. eapply IH; [exact R|eapply Ts; exact E].
  Qed.
  Definition kinded (t : fty) (k : vkind) : Prop := kind t = Some k /\ type_sound t.
  Definition good (e : fexpr) (x : ptype) : Prop := operable e = true -> exists t t0 k, get_type n p e = Ok (Some t) /\ resolved n p t = Ok t0 /\ kinded t0 k /\ shown e = Some k /\ fits x k /\ forall chk, evaluates chk e k.

  Lemma passign_fits x t t0 k : passign en n p x t = Ok true -> resolved n p t = Ok t0 -> kind t0 = Some k -> fits x k.
  Proof.
    intros H R K. assert (Rs : forall s, resolved n p (FScalar s) = Ok (FScalar s)) by (intros; destruct n; reflexivity). pose proof (resolved_idem p n n _ _ R) as I0.
    assert (H' : match x, t0 with
      | x, FForeign f => obj_to_partial en n p (e_obj en f) x
      | PType u, t => assign en n p u t
      | PScalar (PSome s), t | PScalar (PDefaults s), t => assign en n p (FScalar (be s)) t
      | PScalar PNone, _ => Ok true
      | PArray None, FArr _ _ _ => Ok true
      | PArray (Some x), FArr el _ _ => passign en n p x el
      | PAny, _ => Ok true
      | _, _ => Ok false end = Ok true) by (destruct x; cbn [passign] in H; rewrite R in H; exact H). clear H.
    destruct (match t0 with FForeign _ => true | _ => false end) eqn:F.
    - destruct t0 as [| | | | | |f| | |]; try discriminate F. assert (H : obj_to_partial en n p (e_obj en f) x = Ok true) by (destruct x as [|[| |]|[|]|]; exact H'). clear H'. cbn [kind_of_type] in K. unfold obj_to_partial in H.
      destruct (e_obj en f) as [s|s|from to] eqn:Ef; [| |discriminate K]; injection K as <-; destruct x as [u|[s'|s'|]|y|]; cbn [fits]; try exact I; try discriminate H.
      + intros u0 Ru. eapply assign_kind; [exact H|exact Ru|apply Rs|reflexivity].
      + pose proof (assign_kind _ _ _ _ _ (IsInt s') H (Rs _) (Rs _) eq_refl) as H2. cbn in H2. congruence.
      + eauto.
      + intros u0 Ru. destruct u; try discriminate H. rewrite (resolved_id p n) in Ru by discriminate. apply Ok_inj in Ru. subst. reflexivity.
    - destruct x as [u|[s'|s'|]|y|]; cbn [fits]; try exact I.
      + intros u0 Ru. assert (H : assign en n p u t0 = Ok true) by (destruct t0; try discriminate F; exact H'). eapply assign_kind; [exact H|exact Ru|exact I0|exact K].
      + assert (H : assign en n p (FScalar (be s')) t0 = Ok true) by (destruct t0; try discriminate F; exact H'). apply (assign_kind _ _ _ _ _ k H (Rs _) I0) in K. cbn in K. congruence.
      + assert (H : assign en n p (FScalar (be s')) t0 = Ok true) by (destruct t0; try discriminate F; exact H'). apply (assign_kind _ _ _ _ _ k H (Rs _) I0) in K. cbn in K. exists s'. congruence.
      + destruct t0; try discriminate F; try (destruct y; discriminate H'). cbn in K. congruence.
  Qed.
  Lemma coerce_kind a b t0 : coerce n p a b = Ok true -> resolved n p a = Ok t0 -> exists s, kind t0 = Some (IsInt s).
  Proof. unfold coerce. intros H R. rewrite R in H. cbn [bind] in H. destruct (resolved n p b) as [u| | |]; cbn [bind] in H; try discriminate H. destruct t0; try (destruct u; discriminate H); cbn; eauto. Qed.
  Lemma coerce_kind_to a b t0 : coerce n p a b = Ok true -> resolved n p b = Ok t0 -> exists s, kind t0 = Some (IsInt s).
  Proof. unfold coerce. intros H R. destruct (resolved n p a) as [u| | |]; cbn [bind] in H; try discriminate H. rewrite R in H. cbn [bind] in H. destruct t0; try (destruct u; discriminate H); cbn; eauto. Qed.
  Lemma pcoerce_kind x t t0 : pcoerce n p x t = Ok true -> resolved n p t = Ok t0 -> exists s, kind t0 = Some (IsInt s).
  Proof.
    unfold pcoerce. intros H R. rewrite R in H. cbn [bind] in H. pose proof (resolved_idem p n n _ _ R) as I0. destruct x as [u|[s'|s'|]|y|]; try discriminate H; [eapply coerce_kind; eassumption| |].
    - destruct t0; try (cbn; eauto; fail); eapply coerce_kind; eassumption.
    - destruct t0; try (cbn; eauto; fail); eapply coerce_kind; eassumption.
  Qed.
  (** What is known of an expression before it is fitted to [x]. *)
  Definition plain (e : fexpr) : Prop := good e PAny.
  Lemma good_fit e x e' : plain e -> fit en n p e x = Ok e' -> good e' x.
  Proof.
    intros G H O. unfold fit in H. destruct (get_type n p e) as [[t|]| | |] eqn:T; cbn [bind] in H; try discriminate H.
    destruct (passign en n p x t) as [[|]| | |] eqn:A; cbn [bind] in H; try discriminate H.
    - apply Ok_inj in H. subst. destruct (G O) as (t' & t0 & k & T' & R & [K Y] & S & _ & E). rewrite T in T'. apply Ok_inj in T'. injection T' as <-.
      exists t, t0, k. split; [exact T|]. split; [exact R|]. split; [split; assumption|]. split; [exact S|]. split; [|exact E]. eapply passign_fits; eassumption.
    - destruct (pcoerce n p x t) as [[|]| | |] eqn:C; cbn [bind] in H; try discriminate H. destruct (into_type x) as [u|] eqn:U; [|discriminate H]. apply Ok_inj in H. subst e'.
      cbn [operable] in O. apply Bool.andb_true_iff in O as [O Ot]. destruct u as [s| | | | | | | | |]; try discriminate Ot.
      destruct (G O) as (t' & t0 & k & T' & R & [K Y] & S & _ & E). rewrite T in T'. apply Ok_inj in T'. injection T' as <-. destruct (pcoerce_kind _ _ _ C R) as [s0 K']. rewrite K in K'. injection K' as ->.
      exists (FScalar s), (FScalar s), (IsInt (es_scalar s)). split; [reflexivity|]. split; [apply resolved_id; discriminate|]. split; [split; [reflexivity|exact Logic.I]|]. split; [reflexivity|]. split; [|intros chk; eapply eval_cast; apply E].
      destruct x as [u|[s'|s'|]|y|]; cbn in U; try discriminate U; injection U as U; subst; cbn [fits]; [|reflexivity|eauto].
      intros u0 Ru. rewrite (resolved_id p n) in Ru by discriminate. apply Ok_inj in Ru. subst. reflexivity.
  Qed.
  Lemma into_kind : forall m N t xt t0 k k', into_partial m p t = Ok xt -> resolved N p t = Ok t0 -> kind t0 = Some k -> fits xt k' -> k' = k.
  Proof.
    induction m as [|m IH]; intros N t xt t0 k k' H R K F; [discriminate H|]. cbn [into_partial] in H.
    assert (P : xt = PType t -> (forall i args, t <> FRef i args) -> k' = k).
    { intros -> Nr. rewrite (resolved_id p N t Nr) in R. apply Ok_inj in R. subst t0. cbn [fits] in F. specialize (F t (resolved_id p n t Nr)). congruence. }
    destruct t; try (apply Ok_inj in H; apply P; [congruence|discriminate]).
    - apply Ok_inj in H. subst. rewrite (resolved_id p N) in R by discriminate. apply Ok_inj in R. subst. cbn in K, F. congruence.
    - destruct N as [|N]; [discriminate R|]. cbn [resolved] in R. destruct (fget p target) as [f|]; [|discriminate R]. eapply IH; eassumption.
    - destruct (into_partial m p t) as [y| | |]; cbn [bind] in H; try discriminate H. apply Ok_inj in H. subst. rewrite (resolved_id p N) in R by discriminate. apply Ok_inj in R. subst. cbn in K, F. congruence.
  Qed.

  Lemma into_fits : forall m N t xt t0 k, into_partial m p t = Ok xt -> resolved N p t = Ok t0 -> fits xt k -> kind t0 = Some k.
  Proof.
    induction m as [|m IH]; intros N t xt t0 k H R F; [discriminate H|]. cbn [into_partial] in H.
    assert (P : xt = PType t -> (forall i args, t <> FRef i args) -> kind t0 = Some k).
    { intros -> Nr. rewrite (resolved_id p N t Nr) in R. apply Ok_inj in R. subst t0. exact (F t (resolved_id p n t Nr)). }
    destruct t; try (apply Ok_inj in H; apply P; [congruence|discriminate]).
    - apply Ok_inj in H. subst. rewrite (resolved_id p N) in R by discriminate. apply Ok_inj in R. subst. cbn in F |- *. congruence.
    - destruct N as [|N]; [discriminate R|]. cbn [resolved] in R. destruct (fget p target) as [f|]; [|discriminate R]. eapply IH; eassumption.
    - destruct (into_partial m p t) as [y| | |]; cbn [bind] in H; try discriminate H. apply Ok_inj in H. subst. rewrite (resolved_id p N) in R by discriminate. apply Ok_inj in R. subst. cbn in F |- *. congruence.
  Qed.

  (** ** Names: the values behind them are sound *)
  Definition const_sound (c : const) : Prop := exists t0, resolved n p (c_type c) = Ok t0 /\ (operable (c_value c) = true -> exists k, kinded t0 k /\ shown (c_value c) = Some k /\ forall chk, evaluates chk (c_value c) k).
  Hypothesis types : forall i f, fget p i = Some f -> type_sound (f_type f).
  Hypothesis consts : forall x c, mget x (p_consts p) = Some c -> const_sound c.

  Lemma plain_const x c : mget x (p_consts p) = Some c -> plain (FConst (c_name c) (c_type c) (c_value c)).
  Proof.
    intros M O. cbn [operable] in O. destruct (consts _ _ M) as (t0 & R & H). destruct (H O) as (k & [K Y] & S & E). exists (c_type c), t0, k. split; [reflexivity|]. split; [exact R|]. split; [split; assumption|]. split; [exact S|]. split; [exact I|].
    intros chk. apply (eval_same _ _ (c_value c)); [reflexivity|left; reflexivity|apply E].
  Qed.
  Lemma bind_good (r : R fexpr) x e' : (let! e0 := r in fit en n p e0 x) = Ok e' -> (forall e0, r = Ok e0 -> plain e0) -> good e' x.
  Proof. intros H K. destruct r as [e0| | |]; cbn [bind] in H; try discriminate H. eapply good_fit; [apply K; reflexivity|exact H]. Qed.
  Lemma resolved_bool N : resolved N p FBool = Ok FBool. Proof. destruct N; reflexivity. Qed.
  Ltac ops O := repeat match type of O with (_ && _) = true => let O' := fresh "O" in apply Bool.andb_true_iff in O as [O O'] end.

  Lemma plain_bin o l r kl kr tl t0 : operable (FBin o l r) = true -> (is_bool_op o = false -> kr = kl) -> (is_eager_bool o = true -> kl = IsBool /\ kr = IsBool) ->
    get_type n p l = Ok (Some tl) -> resolved n p tl = Ok t0 -> kinded t0 kl -> shown l = Some kl -> (forall chk, evaluates chk l kl) -> (forall chk, evaluates chk r kr) ->
    exists t u k, get_type n p (FBin o l r) = Ok (Some t) /\ resolved n p t = Ok u /\ kinded u k /\ shown (FBin o l r) = Some k /\ fits PAny k /\ forall chk, evaluates chk (FBin o l r) k.
  Proof.
    intros O Same Bool T R [K Y] S El Er. destruct (is_bool_op o) eqn:B.
    - exists FBool, FBool, IsBool. cbn [get_type shown]. rewrite B. split; [reflexivity|]. split; [apply resolved_bool|]. split; [split; [reflexivity|exact Logic.I]|]. split; [reflexivity|]. split; [exact I|]. intros chk.
      destruct o; try discriminate B; try (eapply eval_compare; [reflexivity|apply El|apply Er]); (destruct Bool as [-> ->]; [reflexivity|]; apply eval_logic; [reflexivity|apply El|apply Er]).
    - rewrite (Same eq_refl) in *. assert (Ki : exists s, kl = IsInt s).
      { destruct o; try discriminate B; try discriminate O; cbn [operable is_bool_op] in O; ops O; rewrite S in O0; destruct kl; try discriminate O0; eauto. }
      destruct Ki as [s ->]. exists tl, t0, (IsInt s). cbn [get_type shown]. rewrite B, T. cbn [bind]. split; [reflexivity|]. split; [exact R|]. split; [split; assumption|]. split; [exact S|]. split; [exact I|].
      intros chk. apply eval_arith; [destruct o; try discriminate B; try discriminate O; reflexivity|apply El|apply Er].
  Qed.
  Lemma bin_parts o l r : operable (FBin o l r) = true -> operable l = true /\ operable r = true.
  Proof. intros O. destruct o; try discriminate O; cbn [operable] in O; ops O; auto. Qed.
  Lemma init_bool o x k : is_eager_bool o = true -> fits (init_expected o x) k -> k = IsBool.
  Proof. destruct o; try discriminate; intros _ F; cbn [init_expected fits] in F; specialize (F FBool (resolved_bool n)); cbn in F; congruence. Qed.

  Lemma expr_good sc : forall e x e', cexpr en n p sc e x = Ok e' -> good e' x.
  Proof.
    refine (proj1 (syntax_ind (fun e => forall x e', cexpr en n p sc e x = Ok e' -> good e' x) (fun _ => True) (fun _ => True) _ _ _ _ _ _ _ _ _ _ _ _ _ _ _ _ _ _ _ _ _ _)); try (intros; exact Logic.I).
    - intros v ty x e' H. cbn [cexpr] in H. eapply bind_good; [exact H|]. clear H. intros e0 H _.
      match type of H with bind ?r _ = _ => destruct r as [s| | |] eqn:S0 end; cbn [bind] in H; try discriminate H.
      destruct (ci_parse s v) as [c|] eqn:C; [|discriminate H]. apply Ok_inj in H. subst e0. destruct (parse_ok _ _ _ C) as [Ty Okc].
      exists (FScalar (be (ci_ty c))), (FScalar (be (ci_ty c))), (IsInt (ci_ty c)). split; [reflexivity|]. split; [apply resolved_id; discriminate|]. split; [split; [reflexivity|exact Logic.I]|]. split; [reflexivity|]. split; [exact I|]. intros chk. eapply eval_ok; [reflexivity|reflexivity|exact Okc].
    - intros s x e' H. cbn [cexpr] in H. eapply bind_good; [exact H|]. intros e0 E _. apply Ok_inj in E. subst.
      eexists _, _, IsStr. split; [reflexivity|]. split; [apply resolved_id; discriminate|]. split; [split; [reflexivity|exact Logic.I]|]. split; [reflexivity|]. split; [exact I|]. intros chk. eapply eval_ok; [reflexivity|reflexivity|exact I].
    - intros b x e' H. cbn [cexpr] in H. eapply bind_good; [exact H|]. intros e0 E _. apply Ok_inj in E. subst.
      eexists _, _, IsBool. split; [reflexivity|]. split; [apply resolved_id; discriminate|]. split; [split; [reflexivity|exact Logic.I]|]. split; [reflexivity|]. split; [exact I|]. intros chk. eapply eval_ok; [reflexivity|reflexivity|exact I].
    - intros y x e' H. cbn [cexpr] in H. eapply bind_good; [exact H|]. clear H. intros e0 H.
      destruct (resolve_field sc y) as [i|]; [apply Ok_inj in H; subst; intros O; discriminate O|].
      destruct (resolve_input sc y) as [t|]; [apply Ok_inj in H; subst; intros O; discriminate O|].
      destruct (mget y (p_consts p)) as [c|] eqn:C; [|discriminate H]. apply Ok_inj in H. subst. eapply plain_const. exact C.
    - intros y v x e' H. cbn [cexpr] in H. eapply bind_good; [exact H|]. clear H. intros e0 H.
      destruct (mget y (p_types p)) as [i|] eqn:Ei; [|discriminate H]. destruct (fget p i) as [f|] eqn:Ef; [|discriminate H]. pose proof (types _ _ Ef) as Ts.
      destruct (f_type f) as [| | | |nm rep items|nm rep items| | | |] eqn:Et; try discriminate H.
      + destruct (mget v items) as [[c|]|] eqn:M; try discriminate H. apply Ok_inj in H. subst. intros O. destruct (Ts _ _ M O) as [Sh Ev].
        exists (FEnum nm rep items), (FEnum nm rep items), (IsInt (es_scalar rep)). cbn [get_type]. rewrite Ef, Et. split; [reflexivity|]. split; [apply resolved_id; discriminate|]. split; [split; [reflexivity|exact Ts]|]. split; [exact Sh|]. split; [exact I|].
        intros chk. apply (eval_same _ _ c); [reflexivity|left; reflexivity|apply Ev].
      + destruct (mget v items) as [c|] eqn:M; try discriminate H. apply Ok_inj in H. subst. intros O. destruct (Ts _ _ M O) as [Sh Ev].
        exists (FBits nm rep items), (FBits nm rep items), (IsInt (es_scalar rep)). cbn [get_type]. rewrite Ef, Et. split; [reflexivity|]. split; [apply resolved_id; discriminate|]. split; [split; [reflexivity|exact Ts]|]. split; [exact Sh|]. split; [exact I|].
        intros chk. apply (eval_same _ _ c); [reflexivity|left; reflexivity|apply Ev].
    - intros f args A x e' H. cbn [cexpr] in H. eapply bind_good; [exact H|]. clear H. intros e0 H.
      destruct (mget f (p_funcs p)) as [fn|] eqn:Ef; [|discriminate H]. destruct (ffi_check (List.length args) (fn_params fn)) eqn:Ec; cbn [bind] in H; try discriminate H.
      match type of H with bind ?r _ = _ => destruct r as [out| | |] eqn:Eo; cbn [bind] in H; try discriminate H end. apply Ok_inj in H. subst e0. intros O. discriminate O.
    - intros a i Ha Hi x e' H. cbn [cexpr] in H. eapply bind_good; [exact H|]. clear H. intros e0 H.
      destruct (cexpr en n p sc a _) as [a'| | |] eqn:Ea; cbn [bind] in H; try discriminate H. destruct (cexpr en n p sc i _) as [i'| | |] eqn:Ei; cbn [bind] in H; try discriminate H.
      apply Ok_inj in H. subst. intros O. discriminate O.
    - intros e m He x e' H. cbn [cexpr] in H. eapply bind_good; [exact H|]. clear H. intros e0 H.
      destruct (cexpr en n p sc e _) as [a'| | |] eqn:Ea; cbn [bind] in H; try discriminate H. apply He in Ea.
      destruct (get_type n p a') as [[t|]| | |] eqn:T; cbn [bind] in H; try discriminate H. destruct (resolved n p t) as [r| | |] eqn:Rr; cbn [bind] in H; try discriminate H.
      destruct r as [| | | | |nm rep items| | | |]; try discriminate H. destruct (mget m items) as [c|] eqn:M; [|discriminate H]. apply Ok_inj in H. subst. intros O. cbn [operable] in O. ops O.
      destruct (Ea O) as (t' & t0 & k & T' & R & [K Y] & S & _ & E). rewrite T in T'. apply Ok_inj in T'. injection T' as <-. rewrite Rr in R. apply Ok_inj in R. subst t0. cbn in K. injection K as <-.
      destruct (Y _ _ M O0) as [Sh Ev].
      exists FBool, FBool, IsBool. cbn [get_type]. rewrite T. cbn [bind]. rewrite Rr. cbn [bind]. split; [reflexivity|]. split; [apply resolved_bool|]. split; [split; [reflexivity|exact Logic.I]|]. split; [reflexivity|]. split; [exact I|].
      intros chk. eapply eval_member; [apply E|apply Ev].
    - intros o e He x e' H. cbn [cexpr] in H. eapply bind_good; [exact H|]. clear H. intros e0 H.
      destruct (cexpr en n p sc e x) as [a'| | |] eqn:Ea; cbn [bind] in H; try discriminate H. apply He in Ea.
      assert (e0 = FUn o a').
      { destruct o.
        - destruct (get_type n p a') as [[t|]| | |]; cbn [bind] in H; try discriminate H; [|congruence]. destruct (passign _ _ _ _ _) as [[|]| | |]; cbn [bind negb] in H; try discriminate H. destruct t; try (apply Ok_inj in H; congruence). destruct (is_signed _); [congruence|discriminate H].
        - destruct (passign _ _ _ _ _) as [[|]| | |]; cbn [bind] in H; try discriminate H. congruence.
        - destruct (get_type n p a') as [[t|]| | |]; cbn [bind] in H; try discriminate H; [|congruence]. destruct (passign _ _ _ _ _) as [[|]| | |]; cbn [bind negb] in H; try discriminate H. congruence. }
      subst e0. clear H. intros O. assert (O1 : operable a' = true) by (destruct o; cbn [operable] in O; ops O; exact O). destruct (Ea O1) as (t & t0 & k & T & R & [K Y] & S & F & E).
      destruct o; cbn [operable] in O; ops O; rewrite S in O0.
      + destruct k as [s| |]; try discriminate O0. exists t, t0, (IsInt s). cbn [get_type shown]. split; [exact T|]. split; [exact R|]. split; [split; assumption|]. split; [exact S|]. split; [exact I|]. intros chk. apply eval_neg; [exact O0|apply E].
      + apply vkind_eqb_eq in O0. injection O0 as ->. exists t, t0, IsBool. cbn [get_type shown]. split; [exact T|]. split; [exact R|]. split; [split; assumption|]. split; [reflexivity|]. split; [exact I|]. intros chk. apply eval_not. apply E.
      + destruct k as [s| |]; try discriminate O0. exists t, t0, (IsInt s). cbn [get_type shown]. split; [exact T|]. split; [exact R|]. split; [split; assumption|]. split; [exact S|]. split; [exact I|]. intros chk. apply eval_bitnot. apply E.
    - intros e t He _ x e' H. cbn [cexpr] in H. eapply bind_good; [exact H|]. clear H. intros e0 H.
      assert (K : (let! t' := cinl en n p sc t ForExpr in let! e' := cexpr en n p sc e PAny in let! ty := get_type n p e' in
              match ty with Some ty => let! k := castable en n p ty t' in if k then Ok (FCast e' t') else Err XIllegalCast | None => Err XUninferred end) = Ok e0) by (destruct t; solve [exact H|discriminate H]).
      clear H. destruct (cinl en n p sc t ForExpr) as [t'| | |]; cbn [bind] in K; try discriminate K. destruct (cexpr en n p sc e PAny) as [a'| | |] eqn:Ea; cbn [bind] in K; try discriminate K. apply He in Ea.
      destruct (get_type n p a') as [[ty|]| | |] eqn:T; cbn [bind] in K; try discriminate K. destruct (castable en n p ty t') as [[|]| | |] eqn:C; cbn [bind] in K; try discriminate K. apply Ok_inj in K. subst e0.
      intros O. cbn [operable] in O. ops O. destruct t' as [s| | | | | | | | |]; try discriminate O0. destruct (Ea O) as (t' & t0 & k & T' & R & [K Y] & S & _ & E). rewrite T in T'. apply Ok_inj in T'. injection T' as <-.
      assert (Ki : exists s, k = IsInt s).
      { unfold castable in C. destruct (assign en n p (FScalar s) ty) as [[|]| | |] eqn:A; cbn [bind] in C; try discriminate C.
        - apply (assign_kind _ _ _ _ _ k A (resolved_id p n (FScalar s) ltac:(discriminate)) R) in K. cbn in K. exists (es_scalar s). congruence.
        - destruct (coerce n p (FScalar s) ty) as [[|]| | |] eqn:Co; cbn [bind] in C; try discriminate C.
          + destruct (coerce_kind_to _ _ _ Co R) as [s' K']. exists s'. congruence.
          + rewrite R in C. cbn [bind] in C. rewrite (resolved_id p n (FScalar s)) in C by discriminate. cbn [bind] in C. destruct t0; try discriminate C; try discriminate K. cbn in K. eexists. injection K as <-. reflexivity. }
      destruct Ki as [s' ->]. exists (FScalar s), (FScalar s), (IsInt (es_scalar s)). split; [reflexivity|]. split; [apply resolved_id; discriminate|]. split; [split; [reflexivity|exact Logic.I]|]. split; [reflexivity|]. split; [exact I|]. intros chk. eapply eval_cast. apply E.
    - intros o l r Hl Hr x e' H. cbn [cexpr] in H. eapply bind_good; [exact H|]. clear H. intros e0 H.
      match type of H with bind ?q _ = _ => destruct q as [[|]| | |] end; cbn [bind negb] in H; try discriminate H.
      destruct (cexpr en n p sc l (init_expected o x)) as [l'|er| |] eqn:El; try discriminate H.
      + destruct (get_type n p l') as [[t|]| | |] eqn:T; cbn [bind] in H; try discriminate H. destruct (into_partial n p t) as [xt| | |] eqn:Xt; cbn [bind] in H; try discriminate H.
        destruct (cexpr en n p sc r xt) as [r'| | |] eqn:Er; cbn [bind] in H; try discriminate H. apply Ok_inj in H. subst e0. apply Hl in El. apply Hr in Er. intros O. destruct (bin_parts _ _ _ O) as [Ol Or].
        destruct (El Ol) as (t' & t0 & kl & T' & R & [K Y] & S & F & E). rewrite T in T'. apply Ok_inj in T'. injection T' as <-. destruct (Er Or) as (tr & tr0 & kr & _ & _ & _ & _ & Fr & Er').
        pose proof (into_kind _ _ _ _ _ _ _ Xt R K Fr) as ->. pose proof (conj K Y : kinded t0 _) as KY. eapply plain_bin; try eassumption; [reflexivity|]. intros B. rewrite (init_bool _ _ _ B F). auto.
      + destruct (cexpr en n p sc r (init_expected o x)) as [r'| | |] eqn:Er; cbn [bind] in H; try discriminate H.
        destruct (get_type n p r') as [[t|]| | |] eqn:T; cbn [bind] in H; try discriminate H. destruct (into_partial n p t) as [xt| | |] eqn:Xt; cbn [bind] in H; try discriminate H.
        destruct (cexpr en n p sc l xt) as [l'| | |] eqn:El'; cbn [bind] in H; try discriminate H. apply Ok_inj in H. subst e0. apply Hl in El'. apply Hr in Er. intros O. destruct (bin_parts _ _ _ O) as [Ol Or].
        destruct (Er Or) as (t' & t0 & kr & T' & R & [K Y] & S & F & E). rewrite T in T'. apply Ok_inj in T'. injection T' as <-. destruct (El' Ol) as (tl & tl0 & kl & Tl & Rl & Kl & Sl & Fl & Ell).
        pose proof (into_kind _ _ _ _ _ _ _ Xt R K Fl) as ->. eapply plain_bin; try eassumption; [reflexivity|]. intros B. rewrite (init_bool _ _ _ B F). auto.
    - intros c a b Hc Ha Hb x e' H. cbn [cexpr] in H. eapply bind_good; [exact H|]. clear H. intros e0 H.
      destruct (cexpr en n p sc c (PType FBool)) as [c'| | |] eqn:Ec; cbn [bind] in H; try discriminate H. destruct (cexpr en n p sc a x) as [a'| | |] eqn:Ea; cbn [bind] in H; try discriminate H.
      match type of H with bind ?q _ = _ => destruct q as [xt| | |] end; cbn [bind] in H; try discriminate H. destruct (cexpr en n p sc b xt) as [b'| | |] eqn:Eb; cbn [bind] in H; try discriminate H. apply Ok_inj in H. subst e0.
      apply Hc in Ec. apply Ha in Ea. apply Hb in Eb. intros O. cbn [operable] in O. ops O. apply vkind_eqb_eq in O0.
      destruct (Ec O) as (tc & tc0 & kc & _ & _ & _ & _ & Fc & Evc). specialize (Fc FBool (resolved_bool n)). cbn in Fc. injection Fc as <-.
      destruct (Ea O2) as (ta & ta0 & ka & Ta & Ra & Ka & Sa & _ & Eva). destruct (Eb O1) as (tb & tb0 & kb & _ & _ & _ & Sb & _ & Evb). rewrite Sa, Sb in O0. injection O0 as <-.
      exists ta, ta0, ka. cbn [get_type shown]. rewrite Ta. cbn [bind]. split; [reflexivity|]. split; [exact Ra|]. split; [exact Ka|]. split; [exact Sa|]. split; [exact I|]. intros chk. apply eval_tern; auto.
  Qed.
End Sound.
