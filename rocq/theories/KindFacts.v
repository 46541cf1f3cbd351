(** Safety of compile-time evaluation and its agreement with the emitted code. *)
From Verif Require Import Base Scalar ConstInt ConstIntFacts EnumBits Expr KindSpec.
From Coq Require Import Lia.
Open Scope string_scope. Open Scope Z_scope. Open Scope list_scope.

Lemma ok_range c : ci_ok c <-> in_range (ci_ty c) (ci_val c) = true.
Proof. unfold ci_ok, in_range. rewrite Bool.andb_true_iff, !Z.leb_le. tauto. Qed.
Lemma wrap_range s v : in_range s (wrap s v) = true.
Proof. exact (proj1 (ok_range _) (proj1 (cast_mod (CI s v) s))). Qed.

(** Integer operators on operands of one type. *)
Definition int_fun (chk : bool) (o : binop) : cint -> cint -> ores :=
  match o with
  | OBitOr => ci_bitor | OBitAnd => ci_bitand | OBitXor => ci_bitxor | OShr | OShrS => ci_shr chk | OShl => ci_shl chk
  | OAdd => ci_add chk | OSub => ci_sub chk | OMul => ci_mul chk | ODiv => ci_div | _ => ci_rem
  end.
Lemma cbin_int chk o s a b : integer_op o = true -> cbin chk o (CInt (CI s a)) (CInt (CI s b)) = let! o := int_fun chk o (CI s a) (CI s b) in Ok (match o with Some c => Some (CInt c) | None => None end).
Proof. destruct o; try discriminate; reflexivity. Qed.
Lemma arith_cases chk s v : (exists w, arith chk s v = Ok w /\ in_range s w = true) \/ (arith chk s v = Panic /\ chk = true /\ in_range s v = false).
Proof. unfold arith. destruct (in_range s v) eqn:E; [left; eauto|]. destruct chk; [right; auto|left]. exists (wrap s v). split; [reflexivity|apply wrap_range]. Qed.
Lemma shift_cases chk s k : (exists w, shift_amount chk s k = Ok w /\ 0 <= w) \/ (shift_amount chk s k = Panic /\ chk = true /\ ~ (0 <= k < bits s)).
Proof.
  unfold shift_amount. destruct ((0 <=? k) && (k <? bits s)) eqn:E; [left; exists k; split; [reflexivity|]; apply Bool.andb_true_iff in E as [E _]; apply Z.leb_le; exact E|].
  destruct chk; [right; split; [reflexivity|]; split; [reflexivity|]|left; eexists; split; [reflexivity|]; apply Z.mod_pos_bound; destruct s; reflexivity].
  intros [A B]. apply Z.leb_le in A. apply Z.ltb_lt in B. rewrite A, B in E. discriminate E.
Qed.
Lemma int_fun_cases chk o s a b : integer_op o = true -> in_range s a = true -> in_range s b = true ->
  (exists w, int_fun chk o (CI s a) (CI s b) = Ok (Some (CI s w)) /\ in_range s w = true) \/ (int_fun chk o (CI s a) (CI s b) = Panic /\ undefined_bin chk o s a b).
Proof.
  intros H Ra Rb. destruct (bitwise_range s a b Ra Rb) as (B1 & B2 & B3).
  destruct o; try discriminate H; cbn [int_fun undefined_bin]; unfold ci_bitor, ci_bitand, ci_bitxor, ci_shr, ci_shl, ci_add, ci_sub, ci_mul, ci_div, ci_rem; rewrite biop_same.
  all: try (cbn [bind]; left; eexists; split; [reflexivity|assumption]).
  - unfold rust_shr. destruct (shift_cases chk s b) as [(w & -> & W)|(-> & K)]; cbn [bind]; [left; eexists; split; [reflexivity|apply shiftr_range; assumption]|right; auto].
  - unfold rust_shl. destruct (shift_cases chk s b) as [(w & -> & W)|(-> & K)]; cbn [bind]; [left; eexists; split; [reflexivity|apply wrap_range]|right; auto].
  - unfold rust_shr. destruct (shift_cases chk s b) as [(w & -> & W)|(-> & K)]; cbn [bind]; [left; eexists; split; [reflexivity|apply shiftr_range; assumption]|right; auto].
  - destruct (arith_cases chk s (a + b)) as [(w & -> & W)|(-> & K)]; cbn [bind]; [left; eauto|right; auto].
  - destruct (arith_cases chk s (a - b)) as [(w & -> & W)|(-> & K)]; cbn [bind]; [left; eauto|right; auto].
  - destruct (arith_cases chk s (a * b)) as [(w & -> & W)|(-> & K)]; cbn [bind]; [left; eauto|right; auto].
  - unfold rust_div. destruct (b =? 0) eqn:E; cbn [bind]; [right; split; [reflexivity|left; apply Z.eqb_eq; exact E]|]. destruct (in_range s (Z.quot a b)) eqn:Q; cbn [bind]; [left; eauto|right; auto].
  - unfold rust_rem. destruct (b =? 0) eqn:E; cbn [bind]; [right; split; [reflexivity|left; apply Z.eqb_eq; exact E]|]. destruct (in_range s (Z.quot a b)) eqn:Q; cbn [bind]; [|right; auto].
    left. eexists. split; [reflexivity|]. apply rem_range; [apply Z.eqb_neq; exact E|exact Ra].
Qed.

Lemma kval_int k v s : kval k v -> rep k = Some s -> exists z, v = CInt (CI s z) /\ in_range s z = true.
Proof. destruct k, v; cbn; intros H E; try discriminate E; try contradiction; destruct H as [R O]; destruct c as [s' z]; cbn in *; apply ok_range in O; cbn in O; exists z; injection E as <-; injection R as <-; auto. Qed.
Lemma kval_of k s z : rep k = Some s -> in_range s z = true -> kval k (CInt (CI s z)).
Proof. intros E R. destruct k; cbn in *; try discriminate E; (split; [exact E|apply ok_range; exact R]). Qed.
Lemma kval_bool v : kval KBool v -> exists b, v = CBool b. Proof. destruct v; cbn; intros H; try contradiction; [destruct H; discriminate|eauto]. Qed.

Theorem eval_safe chk e k : typed e k -> (exists v, ceval chk e = Ok (Some v) /\ kval k v) \/ (ceval chk e = Panic /\ faulty chk e).
Proof.
  assert (In1 : forall (a b : expr), In a [a; b]) by (left; reflexivity). assert (In2 : forall (a b : expr), In b [a; b]) by (right; left; reflexivity).
  induction 1 as [c O|b|b|d v z R|d v z R|n t v k T IH|e k s e' T IH E|o l r k k' s O Tl IHl Tr IHr El Er|o l r k k' O Tl IHl Tr IHr|o l r O Tl IHl Tr IHr|o l r k k' s O Tl IHl Tr IHr El Er|e k s T IH E Sg|e k s T IH E|e T IH|c a b k Tc IHc Ta IHa Tb IHb|e d f z T IH R].
  - left. eexists. split; [reflexivity|]. split; [reflexivity|exact O].
  - left. eexists. split; [reflexivity|exact I].
  - left. eexists. split; [reflexivity|exact I].
  - left. eexists. split; [reflexivity|]. apply kval_of; [reflexivity|exact R].
  - left. eexists. split; [reflexivity|]. apply kval_of; [reflexivity|exact R].
  - cbn [ceval]. destruct IH as [IH|[IH F]]; [left; exact IH|right]. split; [exact IH|]. eapply faulty_in; [left; reflexivity|exact F].
  - cbn [ceval]. destruct IH as [(v & Ev & K)|[IH F]]; [|right; rewrite IH; split; [reflexivity|]; eapply faulty_in; [left; reflexivity|exact F]].
    rewrite Ev. cbn [obind]. destruct (kval_int _ _ _ K E) as (z & -> & R). left. eexists. split; [reflexivity|]. cbn. split; [reflexivity|]. apply (cast_mod (CI s z)).
  - cbn [ceval]. destruct IHl as [(v & Ev & K)|[IH F]]; [|right; rewrite IH; split; [reflexivity|]; eapply faulty_in; [apply In1|exact F]]. rewrite Ev. cbn [obind].
    destruct IHr as [(w & Ew & K')|[IH F]]; [|right; rewrite IH; split; [reflexivity|]; eapply faulty_in; [apply In2|exact F]]. rewrite Ew. cbn [obind].
    left. destruct o; try discriminate O; eexists; (split; [reflexivity|exact I]).
  - cbn [ceval]. destruct IHl as [(v & Ev & K)|[IH F]]; [|right; rewrite IH; split; [reflexivity|]; eapply faulty_in; [apply In1|exact F]]. rewrite Ev. cbn [obind].
    destruct IHr as [(w & Ew & K')|[IH F]]; [|right; rewrite IH; split; [reflexivity|]; eapply faulty_in; [apply In2|exact F]]. rewrite Ew. cbn [obind].
    left. destruct o; try discriminate O; eexists; (split; [reflexivity|exact I]).
  - cbn [ceval]. destruct IHl as [(v & Ev & K)|[IH F]]; [|right; rewrite IH; split; [reflexivity|]; eapply faulty_in; [apply In1|exact F]]. rewrite Ev. cbn [obind].
    destruct IHr as [(w & Ew & K')|[IH F]]; [|right; rewrite IH; split; [reflexivity|]; eapply faulty_in; [apply In2|exact F]]. rewrite Ew. cbn [obind].
    destruct (kval_bool _ K) as [bv ->]. destruct (kval_bool _ K') as [bw ->]. left. destruct o; try discriminate O; destruct bv; eexists; (split; [reflexivity|exact I]).
  - cbn [ceval]. destruct IHl as [(v & Ev & K)|[IH F]]; [|right; rewrite IH; split; [reflexivity|]; eapply faulty_in; [apply In1|exact F]].
    destruct IHr as [(w & Ew & K')|[IH F]]; [|right; rewrite Ev, IH; split; [reflexivity|]; eapply faulty_in; [apply In2|exact F]].
    destruct (kval_int _ _ _ K El) as (a & -> & Ra). destruct (kval_int _ _ _ K' Er) as (b & -> & Rb). rewrite Ev, Ew. cbn [obind]. rewrite cbin_int by exact O.
    destruct (int_fun_cases chk o s a b O Ra Rb) as [(x & -> & Rx)|[-> U]]; cbn [bind]; [left; eexists; split; [reflexivity|apply kval_of; assumption]|right]. split; [reflexivity|]. eapply faulty_bin; eassumption.
  - cbn [ceval]. destruct IH as [(v & Ev & K)|[IH F]]; [|right; rewrite IH; split; [reflexivity|]; eapply faulty_in; [left; reflexivity|exact F]].
    destruct (kval_int _ _ _ K E) as (z & -> & R). rewrite Ev. cbn [obind cint1]. unfold ci_neg. cbn [ci_ty ci_val]. rewrite Sg.
    destruct (arith_cases chk s (- z)) as [(w & -> & W)|(-> & C & W)]; cbn [bind]; [left; eexists; split; [reflexivity|apply kval_of; assumption]|right]. split; [reflexivity|]. eapply faulty_neg; eassumption.
  - cbn [ceval]. destruct IH as [(v & Ev & K)|[IH F]]; [|right; rewrite IH; split; [reflexivity|]; eapply faulty_in; [left; reflexivity|exact F]].
    destruct (kval_int _ _ _ K E) as (z & -> & R). rewrite Ev. cbn [obind cint1]. unfold ci_not. cbn [bind ci_ty ci_val]. left. eexists. split; [reflexivity|]. apply kval_of; [exact E|apply wrap_range].
  - cbn [ceval]. destruct IH as [(v & Ev & K)|[IH F]]; [|right; rewrite IH; split; [reflexivity|]; eapply faulty_in; [left; reflexivity|exact F]].
    destruct (kval_bool _ K) as [b ->]. rewrite Ev. left. eexists. split; [reflexivity|exact I].
  - cbn [ceval]. destruct IHc as [(v & Ev & K)|[IH F]]; [|right; rewrite IH; split; [reflexivity|]; eapply faulty_in; [left; reflexivity|exact F]]. rewrite Ev. cbn [obind].
    destruct IHa as [(va & Ea & Ka)|[IH F]]; [|right; rewrite IH; split; [reflexivity|]; eapply faulty_in; [right; left; reflexivity|exact F]]. rewrite Ea. cbn [obind].
    destruct IHb as [(vb & Eb & Kb)|[IH F]]; [|right; rewrite IH; split; [reflexivity|]; eapply faulty_in; [right; right; left; reflexivity|exact F]]. rewrite Eb. cbn [obind].
    destruct (kval_bool _ K) as [[|] ->]; left; eexists; (split; [reflexivity|assumption]).
  - cbn [ceval]. destruct IH as [(v & Ev & K)|[IH F]]; [|right; rewrite IH; split; [reflexivity|]; eapply faulty_in; [left; reflexivity|exact F]].
    destruct (kval_int _ _ _ K eq_refl) as (x & -> & Rx). rewrite Ev. cbn [obind ci_ty]. unfold ci_bitand. rewrite biop_same. cbn [bind obind]. unfold ci_sub. rewrite biop_same.
    unfold arith. rewrite Z.sub_diag, in_range_0. cbn [bind obind]. left. eexists. split; [reflexivity|exact I].
Qed.

(** ** Agreement with the emitted code *)
Lemma emitted_typed e k : emitted e k -> typed e k.
Proof.
  induction 1.
  all: try (econstructor; eauto; reflexivity).
Qed.
Section Agree.
  Variables (chk : bool) (ufn : string -> list val -> res rterr val) (fields inputs : string -> option val) (fty : string -> ety).
  Notation reval := (reval chk ufn fields inputs). Notation emit := (emit fty).

  Lemma same_int s z v : same_value (CInt (CI s z)) v -> (v = VInt s z) \/ exists d x, v = VEnum d x /\ to_repr (en_items d) x = Some z /\ s = es_scalar (en_rep d).
  Proof. destruct v; cbn; try contradiction; [intros [= -> ->]; left; reflexivity|]. intros [A B]. right. eauto. Qed.
  Lemma same_bool b v : same_value (CBool b) v -> v = VBool b.
  Proof. destruct v; cbn; try contradiction. intros ->. reflexivity. Qed.

  (** The run-time value has the shape of the kind. *)
  Definition shape (k : kind) (v : val) : Prop :=
    match k, v with KInt s, VInt s' _ => s = s' | KBool, VBool _ => True | KStr, VArr _ => True | KEnum d, VEnum d' _ => d = d' | _, _ => False end.
  Lemma reval_op o l r a b : o <> OOr -> o <> OAnd -> reval l = Ok a -> reval r = Ok b -> reval (RBin o l r) = rbin chk o a b.
  Proof. intros N N' A B. destruct o; try contradiction; cbn [Expr.reval]; rewrite A, B; reflexivity. Qed.
  Lemma emit_bin o l r : o <> OShrS -> emit (EBin o l r) = RBin o (emit l) (emit r). Proof. destruct o; try contradiction; reflexivity. Qed.
  Lemma emit_not_as e k : emitted e k -> is_cast e = false -> forall x t, emit e <> RAs x t.
  Proof.
    induction 1; intros C x t; try discriminate C; try discriminate.
    all: try (rewrite emit_bin by (try assumption; destruct o; discriminate); discriminate).
    all: cbn [Expr.emit].
    - specialize (IHemitted H1). destruct (emit e); try discriminate. exfalso. eapply IHemitted. reflexivity.
    - specialize (IHemitted H0). destruct (emit e); try discriminate. exfalso. eapply IHemitted. reflexivity.
    - assert (N : is_cast e = false) by (destruct e; try reflexivity; inversion H). specialize (IHemitted N). destruct (emit e); try discriminate. exfalso. eapply IHemitted. reflexivity.
  Qed.
  Lemma emit_un o e k : emitted e k -> is_cast e = false -> emit (EUn o e) = RUn o (emit e).
  Proof. intros M C. pose proof (emit_not_as e k M C) as N. cbn [Expr.emit]. destruct (emit e); try reflexivity. exfalso. eapply N. reflexivity. Qed.
  Lemma emitted_type e k : emitted e k -> match k with KInt _ => exists e', get_type fty e = Some (TyScalar e') | KEnum d => get_type fty e = Some (TyEnum d) | KBits _ => False | _ => True end.
  Proof.
    induction 1; cbn [get_type]; try exact I; try (eexists; reflexivity); try reflexivity; try assumption.
    - destruct IHemitted1 as [e' ->]. destruct o; try discriminate; eexists; reflexivity.
    - destruct k; try exact I; try contradiction; [destruct IHemitted2 as [e' ->]; eauto|rewrite IHemitted2; reflexivity].
  Qed.
  Lemma lift_inj (r : ores) c : r = Ok (Some c) -> lift_opt r = Ok c. Proof. intros ->. reflexivity. Qed.

  Theorem emit_agrees e k : emitted e k -> forall c, ceval chk e = Ok (Some c) -> exists v, reval (emit e) = Ok v /\ same_value c v /\ shape k v.
  Proof.
    induction 1 as [c O|b|b|d v z R L|e s e' M IH|e d e' M IH|o l r s O Ml IHl Mr IHr|o l r k O Hk Ml IHl Mr IHr|o l r O Ml IHl Mr IHr|o l r s O N Ml IHl Mr IHr|e s M IH Sg C|e s M IH C|e M IH|c a b k Mc IHc Ma IHa Mb IHb]; intros x E.
    - apply Ok_inj in E. injection E as <-. eexists. split; [reflexivity|]. split; [destruct c; reflexivity|reflexivity].
    - apply Ok_inj in E. injection E as <-. eexists. split; [reflexivity|]. split; [reflexivity|exact I].
    - apply Ok_inj in E. injection E as <-. eexists. split; [reflexivity|]. split; [reflexivity|exact I].
    - apply Ok_inj in E. injection E as <-. eexists. split; [reflexivity|]. split; [|reflexivity]. cbn. rewrite L. split; reflexivity.
    - cbn [ceval] in E. destruct (eval_safe chk e _ (emitted_typed _ _ M)) as [(v & Ev & K)|[Ev _]]; rewrite Ev in E; cbn [obind] in E; [|discriminate E].
      destruct (IH _ Ev) as (w & Ew & Sw & Hw). destruct (kval_int _ _ _ K eq_refl) as (z & -> & Rz). cbn [ccast ci_cast] in E. apply Ok_inj in E. injection E as <-.
      destruct w; try contradiction. cbn in Sw. injection Sw as <- <-. destruct (emitted_type _ _ M) as [t Et]. cbn [Expr.emit]. rewrite Et. cbn [Expr.reval]. rewrite Ew. cbn [bind ras].
      eexists. split; [reflexivity|]. split; [reflexivity|reflexivity].
    - cbn [ceval] in E. destruct (eval_safe chk e _ (emitted_typed _ _ M)) as [(v & Ev & K)|[Ev _]]; rewrite Ev in E; cbn [obind] in E; [|discriminate E].
      destruct (IH _ Ev) as (w & Ew & Sw & Hw). destruct (kval_int _ _ _ K eq_refl) as (z & -> & Rz). cbn [ccast ci_cast] in E. apply Ok_inj in E. injection E as <-.
      destruct w; try contradiction. cbn in Hw. subst d0. destruct Sw as [Sw _]. cbn [ci_val] in Sw. pose proof (emitted_type _ _ M) as Et. cbn [Expr.emit]. cbn in Et. rewrite Et. cbn [Expr.reval]. rewrite Ew. cbn [bind]. rewrite Sw. cbn [bind ras].
      eexists. split; [reflexivity|]. split; [reflexivity|reflexivity].
    - cbn [ceval] in E. destruct (eval_safe chk l _ (emitted_typed _ _ Ml)) as [(v & Ev & K)|[Ev _]]; rewrite Ev in E; cbn [obind] in E; [|discriminate E].
      destruct (eval_safe chk r _ (emitted_typed _ _ Mr)) as [(w & Ew & K')|[Ew _]]; rewrite Ew in E; cbn [obind] in E; [|discriminate E].
      destruct (IHl _ Ev) as (v' & El & Sl & Hl). destruct (IHr _ Ew) as (w' & Er & Sr & Hr). destruct (kval_int _ _ _ K eq_refl) as (p & -> & _). destruct (kval_int _ _ _ K' eq_refl) as (q & -> & _).
      destruct v'; try contradiction. destruct w'; try contradiction. cbn in Sl, Sr. injection Sl as <- <-. injection Sr as <- <-.
      rewrite emit_bin by (destruct o; discriminate). rewrite (reval_op o _ _ _ _ ltac:(destruct o; discriminate) ltac:(destruct o; discriminate) El Er).
      destruct o; try discriminate O; cbn [rbin vcmp]; rewrite (proj2 (scalar_eqb_eq s s) eq_refl); cbn [cbin ccmp cval_cmp ci_cmp ci_ty ci_val] in E; unfold ccmp in E; cbn [cval_cmp] in E; unfold ci_cmp in E; cbn [ci_ty ci_val] in E; rewrite ?(proj2 (scalar_eqb_eq s s) eq_refl) in E; apply Ok_inj in E; injection E as <-; eexists; (split; [reflexivity|]); (split; [reflexivity|exact I]).
    - cbn [ceval] in E. destruct (eval_safe chk l _ (emitted_typed _ _ Ml)) as [(v & Ev & K)|[Ev _]]; rewrite Ev in E; cbn [obind] in E; [|discriminate E].
      destruct (eval_safe chk r _ (emitted_typed _ _ Mr)) as [(w & Ew & K')|[Ew _]]; rewrite Ew in E; cbn [obind] in E; [|discriminate E].
      destruct (IHl _ Ev) as (v' & El & Sl & Hl). destruct (IHr _ Ew) as (w' & Er & Sr & Hr).
      rewrite emit_bin by (destruct o; discriminate). rewrite (reval_op o _ _ _ _ ltac:(destruct o; discriminate) ltac:(destruct o; discriminate) El Er).
      destruct Hk as [->|[s ->]].
      + destruct (kval_bool _ K) as [p ->]. destruct (kval_bool _ K') as [q ->]. apply same_bool in Sl, Sr. subst v' w'.
        destruct o; try discriminate O; cbn in E; apply Ok_inj in E; injection E as <-; eexists; (split; [reflexivity|]); (split; [reflexivity|exact I]).
      + destruct (kval_int _ _ _ K eq_refl) as (p & -> & _). destruct (kval_int _ _ _ K' eq_refl) as (q & -> & _).
        destruct v'; try contradiction. destruct w'; try contradiction. cbn in Sl, Sr. injection Sl as <- <-. injection Sr as <- <-.
        destruct o; try discriminate O; cbn [cbin cval_eqb] in E; unfold ci_eqb in E; cbn [ci_ty ci_val] in E; cbn [rbin val_eqb]; rewrite ?(proj2 (scalar_eqb_eq s s) eq_refl) in E |- *; cbn [andb] in E; apply Ok_inj in E; injection E as <-; eexists; (split; [reflexivity|]); (split; [reflexivity|exact I]).
    - cbn [ceval] in E. destruct (eval_safe chk l _ (emitted_typed _ _ Ml)) as [(v & Ev & K)|[Ev _]]; rewrite Ev in E; cbn [obind] in E; [|discriminate E].
      destruct (eval_safe chk r _ (emitted_typed _ _ Mr)) as [(w & Ew & K')|[Ew _]]; rewrite Ew in E; cbn [obind] in E; [|discriminate E].
      destruct (IHl _ Ev) as (v' & El & Sl & Hl). destruct (IHr _ Ew) as (w' & Er & Sr & Hr).
      destruct (kval_bool _ K) as [p ->]. destruct (kval_bool _ K') as [q ->]. apply same_bool in Sl, Sr. subst v' w'.
      rewrite emit_bin by (destruct o; discriminate).
      destruct o; try discriminate O; cbn [Expr.reval]; rewrite El, Er; cbn [bind]; destruct p, q; cbn in E; apply Ok_inj in E; injection E as <-; eexists; (split; [reflexivity|]); (split; [reflexivity|exact I]).
    - cbn [ceval] in E. destruct (eval_safe chk l _ (emitted_typed _ _ Ml)) as [(v & Ev & K)|[Ev _]]; rewrite Ev in E; cbn [obind] in E; [|discriminate E].
      destruct (eval_safe chk r _ (emitted_typed _ _ Mr)) as [(w & Ew & K')|[Ew _]]; rewrite Ew in E; cbn [obind] in E; [|discriminate E].
      destruct (IHl _ Ev) as (v' & El & Sl & Hl). destruct (IHr _ Ew) as (w' & Er & Sr & Hr). destruct (kval_int _ _ _ K eq_refl) as (p & -> & Rp). destruct (kval_int _ _ _ K' eq_refl) as (q & -> & Rq).
      destruct v'; try contradiction. destruct w'; try contradiction. cbn in Sl, Sr. injection Sl as <- <-. injection Sr as <- <-.
      rewrite emit_bin by exact N. rewrite (reval_op o _ _ _ _ ltac:(intros ->; discriminate) ltac:(intros ->; discriminate) El Er). rewrite cbin_int in E by exact O.
      destruct (int_fun_cases chk o s p q O Rp Rq) as [(y & Ey & Ry)|[Ey _]]; rewrite Ey in E; cbn [bind] in E; [|discriminate E]. apply Ok_inj in E. injection E as <-.
      exists (VInt s y). split; [|split; reflexivity]. destruct o; try discriminate O; try contradiction; cbn [rbin vint2 int_fun] in Ey |- *; rewrite Ey; reflexivity.
    - rewrite (emit_un _ _ _ M C). cbn [ceval] in E. destruct (eval_safe chk e _ (emitted_typed _ _ M)) as [(v & Ev & K)|[Ev _]]; rewrite Ev in E; cbn [obind] in E; [|discriminate E].
      destruct (IH _ Ev) as (v' & El & Sl & Hl). destruct (kval_int _ _ _ K eq_refl) as (p & -> & Rp). destruct v'; try contradiction. cbn in Sl. injection Sl as <- <-. cbn [Expr.reval]. rewrite El. cbn [bind run cint1] in E |- *.
      destruct (ci_neg chk (CI s p)) as [[[s' y]|]| | |] eqn:Y; cbn [bind] in E; try discriminate E. apply Ok_inj in E. injection E as <-. cbn [lift_opt bind ci_ty ci_val]. eexists. split; [reflexivity|]. split; [reflexivity|].
      unfold ci_neg in Y. cbn [ci_ty ci_val] in Y. rewrite Sg in Y. destruct (arith chk s (- p)); try discriminate Y. cbn in Y. injection Y as <- <-. reflexivity.
    - rewrite (emit_un _ _ _ M C). cbn [ceval] in E. destruct (eval_safe chk e _ (emitted_typed _ _ M)) as [(v & Ev & K)|[Ev _]]; rewrite Ev in E; cbn [obind] in E; [|discriminate E].
      destruct (IH _ Ev) as (v' & El & Sl & Hl). destruct (kval_int _ _ _ K eq_refl) as (p & -> & Rp). destruct v'; try contradiction. cbn in Sl. injection Sl as <- <-. cbn [Expr.reval]. rewrite El. cbn [bind run cint1] in E |- *.
      unfold ci_not in *. cbn [bind] in E. apply Ok_inj in E. injection E as <-. eexists. split; [reflexivity|]. split; reflexivity.
    - assert (C : is_cast e = false) by (destruct e; try reflexivity; inversion M). rewrite (emit_un _ _ _ M C). cbn [ceval] in E. destruct (eval_safe chk e _ (emitted_typed _ _ M)) as [(v & Ev & K)|[Ev _]]; rewrite Ev in E; cbn [obind] in E; [|discriminate E].
      destruct (IH _ Ev) as (v' & El & Sl & Hl). destruct (kval_bool _ K) as [p ->]. apply same_bool in Sl. subst v'. cbn [Expr.reval]. rewrite El. apply Ok_inj in E. injection E as <-. eexists. split; [reflexivity|]. split; [reflexivity|exact I].
    - cbn [ceval] in E. destruct (eval_safe chk c _ (emitted_typed _ _ Mc)) as [(v & Ev & K)|[Ev _]]; rewrite Ev in E; cbn [obind] in E; [|discriminate E].
      destruct (ceval chk a) as [[va|]| | |] eqn:Ea; cbn [obind] in E; try discriminate E. destruct (ceval chk b) as [[vb|]| | |] eqn:Eb; cbn [obind] in E; try discriminate E.
      destruct (IHc _ Ev) as (v' & El & Sl & Hl). destruct (kval_bool _ K) as [p ->]. apply same_bool in Sl. subst v'. cbn [Expr.emit Expr.reval]. rewrite El. cbn [bind]. destruct p; apply Ok_inj in E; injection E as <-; eauto.
  Qed.
End Agree.
