(** C25, C26: arguments of types, functions and transforms. *)
From Verif Require Import Base Scalar ConstInt ConstIntFacts Tokens Ast Parse Front Program FrontFacts TypeFacts P_Types.
From Coq Require Import Lia.
Open Scope string_scope. Open Scope Z_scope. Open Scope list_scope.

(** [k]-th argument against [k]-th parameter, in order and nothing else. *)
Definition bound_in_order (convert : aexpr -> ptype -> R fexpr) (expected : nat -> R ptype) (args : list aexpr) (out : list fexpr) : Prop :=
  List.length out = List.length args /\
  forall k e, nth_error args k = Some e -> exists x e', expected k = Ok x /\ convert e x = Ok e' /\ nth_error out k = Some e'.

Lemma filter_len {A} (f : A -> bool) l : (List.length (filter f l) <= List.length l)%nat.
Proof. induction l; cbn; [lia|]. destruct (f a); cbn; lia. Qed.
Lemma existsb_false_Forall {A} (f : A -> bool) l : existsb f l = false <-> Forall (fun x => f x = false) l.
Proof. rewrite Forall_forall. induction l as [|x l IH]; cbn; [split; [tauto|reflexivity]|]. rewrite orb_false_iff, IH. split; [intros [H1 H2] y [<-|I]; auto|intros H; split; auto]. Qed.

(** ** The argument lists *)
Lemma go_ffi en n p sc : forall args ps r,
  (fix go (l : list aexpr) (ps : list fparam) {struct l} : R (list fexpr) :=
     match l, ps with
     | e :: l, q :: ps =>
         let! xt := match fp_type q with Some t => into_partial n p t | None => Ok PAny end in
         let! e' := cexpr en n p sc e xt in let! r := go l ps in Ok (e' :: r)
     | _, _ => Ok []
     end) args ps = Ok r -> (List.length args <= List.length ps)%nat ->
  bound_in_order (cexpr en n p sc) (fun k => match nth_error ps k with Some q => ffi_expected n p q | None => Panic end) args r.
Proof.
  induction args as [|e args IH]; intros ps r H L.
  - apply Ok_inj in H. subst. split; [reflexivity|]. intros [|k] e H; discriminate H.
  - destruct ps as [|q ps]; [cbn in L; lia|]. run H. apply IH in E1; [|cbn in L; lia]. destruct E1 as [L1 B1]. split; [cbn; lia|].
    intros [|k] e0 K; cbn in K.
    + injection K as <-. exists a, a0. cbn. split; [exact E|]. split; [exact E0|reflexivity].
    + cbn. apply B1. exact K.
Qed.
Lemma go_type en n p sc : forall args ps r,
  (fix go (l : list aexpr) (ps : list param) {struct l} : R (list fexpr) :=
     match l, ps with
     | e :: l, q :: ps =>
         let! xt := into_partial n p (pm_type q) in
         let! e' := cexpr en n p sc e xt in let! r := go l ps in Ok (e' :: r)
     | _, _ => Ok []
     end) args ps = Ok r -> (List.length args <= List.length ps)%nat ->
  bound_in_order (cexpr en n p sc) (fun k => match nth_error ps k with Some q => into_partial n p (pm_type q) | None => Panic end) args r.
Proof.
  induction args as [|e args IH]; intros ps r H L.
  - apply Ok_inj in H. subst. split; [reflexivity|]. intros [|k] e H; discriminate H.
  - destruct ps as [|q ps]; [cbn in L; lia|]. run H. apply IH in E1; [|cbn in L; lia]. destruct E1 as [L1 B1]. split; [cbn; lia|].
    intros [|k] e0 K; cbn in K.
    + injection K as <-. exists a, a0. cbn. split; [exact E|]. split; [exact E0|reflexivity].
    + cbn. apply B1. exact K.
Qed.
Lemma go_type_total en n p sc : forall args ps out,
  bound_in_order (cexpr en n p sc) (fun k => match nth_error ps k with Some q => into_partial n p (pm_type q) | None => Panic end) args out ->
  (fix go (l : list aexpr) (ps : list param) {struct l} : R (list fexpr) :=
     match l, ps with
     | e :: l, q :: ps =>
         let! xt := into_partial n p (pm_type q) in
         let! e' := cexpr en n p sc e xt in let! r := go l ps in Ok (e' :: r)
     | _, _ => Ok []
     end) args ps = Ok out.
Proof.
  induction args as [|e args IH]; intros ps out [L B].
  - destruct out; [reflexivity|discriminate L].
  - destruct out as [|o out]; [discriminate L|]. destruct (B 0%nat e eq_refl) as (x & e' & X & Y & Z). destruct ps as [|q ps]; [discriminate X|]. cbn in X, Z. injection Z as <-.
    rewrite X. cbn [bind]. rewrite Y. cbn [bind]. rewrite (IH ps out); [reflexivity|]. split; [cbn in L; lia|]. intros k e0 K. apply (B (S k) e0 K).
Qed.
Lemma go_ffi_total en n p sc : forall args ps out,
  bound_in_order (cexpr en n p sc) (fun k => match nth_error ps k with Some q => ffi_expected n p q | None => Panic end) args out ->
  (fix go (l : list aexpr) (ps : list fparam) {struct l} : R (list fexpr) :=
     match l, ps with
     | e :: l, q :: ps =>
         let! xt := match fp_type q with Some t => into_partial n p t | None => Ok PAny end in
         let! e' := cexpr en n p sc e xt in let! r := go l ps in Ok (e' :: r)
     | _, _ => Ok []
     end) args ps = Ok out.
Proof.
  induction args as [|e args IH]; intros ps out [L B].
  - destruct out; [reflexivity|discriminate L].
  - destruct out as [|o out]; [discriminate L|]. destruct (B 0%nat e eq_refl) as (x & e' & X & Y & Z). destruct ps as [|q ps]; [discriminate X|]. cbn in X, Z. injection Z as <-.
    unfold ffi_expected in X. cbn [bind]. destruct (fp_type q); rewrite ?X; [|injection X as <-]; cbn [bind]. all: rewrite Y; cbn [bind]; rewrite (IH ps out); [reflexivity|]; split; [cbn in L; lia|]; intros k e0 K; apply (B (S k) e0 K).
Qed.

(** ** C25 *)
(** Counting as documented: at least the parameters without default, at most all of them. *)
Definition count_ok (args : list aexpr) (ps : list param) : Prop :=
  (List.length (filter (fun q => negb (has_default q)) ps) <= List.length args <= List.length ps)%nat.

(** C25. An accepted reference goes to the declared type of that name, has a permitted number of arguments, and passes each
    supplied argument, converted to its own parameter's type, in order. *)
Lemma ref_accepted en n p sc x args u t : cinl en n p sc (YRef x args) u = Ok t ->
  exists i f out, mget x (p_types p) = Some i /\ fget p i = Some f /\ t = FRef i out /\ count_ok args (f_params f) /\
    bound_in_order (cexpr en n p sc) (fun k => match nth_error (f_params f) k with Some q => into_partial n p (pm_type q) | None => Panic end) args out.
Proof.
  intros H. cbn [cinl] in H. destruct (mget x (p_types p)) as [i|] eqn:Ei; [|discriminate H]. destruct (fget p i) as [f|] eqn:Ef; [|discriminate H].
  destruct (type_check (List.length args) (f_params f)) eqn:Ec; cbn [bind] in H; try discriminate H. unfold type_check in Ec.
  destruct ((_ <? _)%nat && _); [discriminate Ec|]. destruct ((_ <? _)%nat || _) eqn:Eo in Ec; [discriminate Ec|]. apply orb_false_iff in Eo as [O1 O2]. apply Nat.ltb_ge in O1, O2.
  match type of H with bind ?r _ = _ => destruct r as [out| | |] eqn:Eg; cbn [bind] in H; try discriminate H end. apply Ok_inj in H. subst t.
  exists i, f, out. split; [reflexivity|]. split; [exact Ef|]. split; [reflexivity|]. split; [split; assumption|]. apply go_type in Eg; [exact Eg|exact O2].
Qed.
Theorem C25_accepted : forall en n p sc x args u t, cinl en n p sc (YRef x args) u = Ok t ->
  exists i f out, mget x (p_types p) = Some i /\ fget p i = Some f /\ t = FRef i out /\ count_ok args (f_params f) /\
    bound_in_order (cexpr en n p sc) (fun k => match nth_error (f_params f) k with Some q => into_partial n p (pm_type q) | None => Panic end) args out.
Proof. exact ref_accepted. Qed.
Print Assumptions C25_accepted.

(** C25. Conversely every reference with exactly the required arguments, or to a type all of whose parameters are optional, is accepted
    if its arguments are. *)
Lemma ref_complete en n p sc x args u i f out : mget x (p_types p) = Some i -> fget p i = Some f -> count_ok args (f_params f) ->
  (List.length args = type_required (f_params f) \/ type_required (f_params f) = O \/ List.length (filter (fun q => negb (has_default q)) (f_params f)) = List.length (f_params f)) ->
  bound_in_order (cexpr en n p sc) (fun k => match nth_error (f_params f) k with Some q => into_partial n p (pm_type q) | None => Panic end) args out ->
  cinl en n p sc (YRef x args) u = Ok (FRef i out).
Proof.
  intros Ei Ef [C1 C2] Sp B. cbn [cinl]. rewrite Ei, Ef. unfold type_check, type_required in *.
  replace ((List.length (filter (fun q => negb (has_default q)) (f_params f)) <? List.length args)%nat && existsb has_default (last_n (List.length (filter (fun q => negb (has_default q)) (f_params f))) (f_params f))) with false.
  - replace ((List.length args <? List.length (filter (fun q => negb (has_default q)) (f_params f)))%nat || (List.length (f_params f) <? List.length args)%nat) with false
      by (symmetry; apply orb_false_iff; split; apply Nat.ltb_ge; assumption).
    cbn [bind]. match goal with |- bind ?r _ = _ => assert (G : r = Ok out) by exact (go_type_total _ _ _ _ _ _ _ B); rewrite G end. reflexivity.
  - symmetry. apply andb_false_iff. destruct Sp as [Sp|[Sp|Sp]]; [left; apply Nat.ltb_ge; lia|right; rewrite Sp; unfold last_n; rewrite Nat.sub_0_r, skipn_all; reflexivity|left; apply Nat.ltb_ge; lia].
Qed.
Theorem C25_complete_partial : forall en n p sc x args u i f out, mget x (p_types p) = Some i -> fget p i = Some f -> count_ok args (f_params f) ->
  (List.length args = type_required (f_params f) \/ type_required (f_params f) = O \/ List.length (filter (fun q => negb (has_default q)) (f_params f)) = List.length (f_params f)) ->
  bound_in_order (cexpr en n p sc) (fun k => match nth_error (f_params f) k with Some q => into_partial n p (pm_type q) | None => Panic end) args out ->
  cinl en n p sc (YRef x args) u = Ok (FRef i out).
Proof. exact ref_complete. Qed.
Print Assumptions C25_complete_partial.

(** C25. Optional parameters after required ones can never be supplied, whatever the arguments. *)
Lemma filter_all {A} (f : A -> bool) l : Forall (fun x => f x = true) l -> filter f l = l.
Proof. induction 1; cbn; [reflexivity|]. rewrite H, IHForall. reflexivity. Qed.
Lemma filter_none {A} (f : A -> bool) l : Forall (fun x => f x = false) l -> filter f l = [].
Proof. induction 1; cbn; [reflexivity|]. rewrite H. exact IHForall. Qed.
Lemma optional_rejected en n p sc x args u i f rq op : mget x (p_types p) = Some i -> fget p i = Some f -> f_params f = rq ++ op ->
  Forall (fun q => has_default q = false) rq -> Forall (fun q => has_default q = true) op -> rq <> [] -> op <> [] ->
  (List.length rq < List.length args)%nat -> cinl en n p sc (YRef x args) u = Err XArgOrder.
Proof.
  intros Ei Ef Ep Fr Fo Nr No L. cbn [cinl]. rewrite Ei, Ef. unfold type_check, type_required. rewrite Ep, filter_app.
  rewrite (filter_all _ rq) by (eapply Forall_impl; [|exact Fr]; intros q ->; reflexivity). rewrite (filter_none _ op) by (eapply Forall_impl; [|exact Fo]; intros q ->; reflexivity).
  rewrite app_nil_r. replace ((List.length rq <? List.length args)%nat) with true by (symmetry; apply Nat.ltb_lt; exact L).
  assert (X : existsb has_default (last_n (List.length rq) (rq ++ op)) = true).
  { apply existsb_exists. destruct (exists_last No) as (op' & q & ->). exists q. split; [|apply Forall_app in Fo as [_ Fo]; inversion Fo; assumption].
    unfold last_n. rewrite app_assoc. rewrite skipn_app. apply in_app_iff. right.
    replace (List.length ((rq ++ op') ++ [q]) - List.length rq - List.length (rq ++ op'))%nat with O; [left; reflexivity|]. rewrite !app_length. cbn. destruct rq; [congruence|cbn; lia]. }
  rewrite X. reflexivity.
Qed.
Theorem C25_optional_arguments_refuted : forall en n p sc x args u i f rq op, mget x (p_types p) = Some i -> fget p i = Some f -> f_params f = rq ++ op ->
  Forall (fun q => has_default q = false) rq -> Forall (fun q => has_default q = true) op -> rq <> [] -> op <> [] ->
  (List.length rq < List.length args)%nat -> cinl en n p sc (YRef x args) u = Err XArgOrder.
Proof. exact optional_rejected. Qed.
Print Assumptions C25_optional_arguments_refuted.

(** C25. A required parameter after an optional one is not rejected. *)
Definition run_ok (r : R prog) : bool := match r with Ok _ => true | _ => false end.
Theorem C25_order_refuted :
  run_ok (analyse string_env no_resolver 20 2 (bs "type t(a: u8 ? 1, b: u8) = u8[a]; type s = t(1, 2);")) = true /\
  analyse string_env no_resolver 20 2 (bs "type t(b: u8, a: u8 ? 1) = u8[a]; type s = t(1, 2);") = Err XArgOrder.
Proof. split; vm_compute; reflexivity. Qed.
Print Assumptions C25_order_refuted.
Example C25_nonvacuous : run_ok (analyse string_env no_resolver 20 2 (bs "type t(b: u8, a: u16) = u8[a]; type s(k: u8) = t(k + 1, 2);")) = true /\
  analyse string_env no_resolver 20 2 (bs "type t(b: u8, a: u16) = u8[a]; type s(k: u8) = t(k + 1);") = Err (XArgCount 2 2 1).
Proof. split; vm_compute; reflexivity. Qed.

(** ** C26 *)
Definition fcount_ok (args : list aexpr) (ps : list fparam) : Prop :=
  (List.length (filter (fun q => negb (fp_optional q)) ps) <= List.length args <= List.length ps)%nat.

(** C26. An accepted call has a permitted number of arguments and binds them in order. *)
Lemma ffi_check_ok got ps : ffi_check got ps = Ok tt ->
  (List.length (filter (fun q => negb (fp_optional q)) ps) <= got <= List.length ps)%nat.
Proof.
  unfold ffi_check. destruct (_ && _); [discriminate|]. destruct (_ || _) eqn:O; [discriminate|]. intros _. apply orb_false_iff in O as [O1 O2]. apply Nat.ltb_ge in O1, O2. split; assumption.
Qed.
Lemma fit_shape en n p e x e' : fit en n p e x = Ok e' -> e' = e \/ exists t, into_type x = Some t /\ e' = FCast e t.
Proof. unfold fit. intros H. run H; eauto. Qed.
Lemma call_accepted en n p sc g args x e : cexpr en n p sc (ACall g args) x = Ok e ->
  exists fn out, mget g (p_funcs p) = Some fn /\ (e = FCall g out \/ exists t, into_type x = Some t /\ e = FCast (FCall g out) t) /\ fcount_ok args (fn_params fn) /\
    bound_in_order (cexpr en n p sc) (fun k => match nth_error (fn_params fn) k with Some q => ffi_expected n p q | None => Panic end) args out.
Proof.
  intros H. cbn [cexpr] in H. destruct (mget g (p_funcs p)) as [fn|] eqn:Eg; [|discriminate H].
  destruct (ffi_check (List.length args) (fn_params fn)) as [[]| | |] eqn:Ec; cbn [bind] in H; try discriminate H. apply ffi_check_ok in Ec.
  match type of H with bind (bind ?r _) _ = _ => destruct r as [out| | |] eqn:Eo; cbn [bind] in H; try discriminate H end.
  exists fn, out. split; [reflexivity|]. split; [apply fit_shape in H; exact H|]. split; [exact Ec|]. apply go_ffi in Eo; [exact Eo|apply Ec].
Qed.
Theorem C26_call_accepted : forall en n p sc g args x e, cexpr en n p sc (ACall g args) x = Ok e ->
  exists fn out, mget g (p_funcs p) = Some fn /\ (e = FCall g out \/ exists t, into_type x = Some t /\ e = FCast (FCall g out) t) /\ fcount_ok args (fn_params fn) /\
    bound_in_order (cexpr en n p sc) (fun k => match nth_error (fn_params fn) k with Some q => ffi_expected n p q | None => Panic end) args out.
Proof. exact call_accepted. Qed.
Print Assumptions C26_call_accepted.

Lemma cargs_bound en n p sc : forall args ps out, cargs en n p sc args (map (ffi_expected n p) ps) = Ok out -> (List.length args <= List.length ps)%nat ->
  bound_in_order (cexpr en n p sc) (fun k => match nth_error ps k with Some q => ffi_expected n p q | None => Panic end) args out.
Proof.
  induction args as [|e args IH]; intros ps out H L.
  - cbn in H. apply Ok_inj in H. subst. split; [reflexivity|]. intros [|k] e H; discriminate H.
  - destruct ps as [|q ps]; [cbn in L; lia|]. cbn [cargs map] in H. run H. apply IH in E1; [|cbn in L; lia]. destruct E1 as [L1 B1]. split; [cbn; lia|].
    intros [|k] e0 K; cbn in K.
    + injection K as <-. exists a, a0. cbn. split; [exact E|]. split; [exact E0|reflexivity].
    + cbn. apply B1. exact K.
Qed.
Lemma xform_accepted en n p sc : forall xs out, cxforms en n p sc xs = Ok out -> List.length out = List.length xs /\
  forall k g args cond, nth_error xs k = Some (AXform g args cond) -> exists ps u, mget g (p_xforms p) = Some ps /\ nth_error out k = Some u /\ xu_name u = g /\ fcount_ok args ps /\
    bound_in_order (cexpr en n p sc) (fun k => match nth_error ps k with Some q => ffi_expected n p q | None => Panic end) args (xu_args u) /\
    match cond with None => xu_cond u = None | Some c => exists c', cexpr en n p sc c (PType FBool) = Ok c' /\ xu_cond u = Some c' end.
Proof.
  induction xs as [|[g args cond] xs IH]; intros out H.
  - cbn in H. apply Ok_inj in H. subst. split; [reflexivity|]. intros [|k] ? ? ? K; discriminate K.
  - cbn [cxforms] in H. destruct (mget g (p_xforms p)) as [ps|] eqn:Eg; [|discriminate H]. run H. destruct a. apply ffi_check_ok in E. apply cargs_bound in E0; [|apply E].
    destruct (IH _ eq_refl) as [L B]. split; [cbn; lia|]. intros [|k] g0 args0 cond0 K; cbn in K.
    + injection K as <- <- <-. eexists _, _. split; [exact Eg|]. split; [reflexivity|]. split; [reflexivity|]. split; [exact E|]. split; [exact E0|].
      cbn [xu_cond]. unfold copt in E1. destruct cond as [c|]; [destruct (cexpr en n p sc c (PType FBool)) as [c1| | |]; try discriminate E1; apply Ok_inj in E1; subst a1; eexists; split; reflexivity|apply Ok_inj in E1; subst a1; reflexivity].
    + cbn [nth_error]. apply B. exact K.
Qed.
Theorem C26_transform_accepted : forall en n p sc xs out, cxforms en n p sc xs = Ok out -> List.length out = List.length xs /\
  forall k g args cond, nth_error xs k = Some (AXform g args cond) -> exists ps u, mget g (p_xforms p) = Some ps /\ nth_error out k = Some u /\ xu_name u = g /\ fcount_ok args ps /\
    bound_in_order (cexpr en n p sc) (fun k => match nth_error ps k with Some q => ffi_expected n p q | None => Panic end) args (xu_args u) /\
    match cond with None => xu_cond u = None | Some c => exists c', cexpr en n p sc c (PType FBool) = Ok c' /\ xu_cond u = Some c' end.
Proof. exact xform_accepted. Qed.
Print Assumptions C26_transform_accepted.

(** C26. The count check in full: for parameters in the documented order (required, then optional) a wrong count is reported, and
    the compiler crashes exactly if some optional argument is supplied while fewer optional than required parameters exist. *)
Lemma ffi_exact got rq op : Forall (fun q => fp_optional q = false) rq -> Forall (fun q => fp_optional q = true) op ->
  ffi_check got (rq ++ op) =
    if (got <=? List.length rq)%nat || (List.length rq <=? List.length op)%nat then
      if (List.length rq <=? got)%nat && (got <=? List.length (rq ++ op))%nat then Ok tt else Err (XFfiCount (List.length rq) (List.length (rq ++ op)) got)
    else Panic.
Proof.
  intros Fr Fo. unfold ffi_check, ffi_required. rewrite filter_app.
  rewrite (filter_all _ rq) by (eapply Forall_impl; [|exact Fr]; intros q ->; reflexivity). rewrite (filter_none _ op) by (eapply Forall_impl; [|exact Fo]; intros q ->; reflexivity).
  rewrite app_nil_r. destruct (Nat.leb_spec got (List.length rq)) as [L|L].
  - replace ((List.length rq <? got)%nat) with false by (symmetry; apply Nat.ltb_ge; exact L). cbn [andb orb].
    destruct (Nat.ltb_spec got (List.length rq)) as [L'|L']; cbn [orb].
    + replace ((List.length rq <=? got)%nat) with false by (symmetry; apply Nat.leb_gt; exact L'). reflexivity.
    + replace ((List.length rq <=? got)%nat) with true by (symmetry; apply Nat.leb_le; lia). rewrite app_length. replace ((_ + _ <? got)%nat) with false by (symmetry; apply Nat.ltb_ge; lia). replace ((got <=? _ + _)%nat) with true by (symmetry; apply Nat.leb_le; lia). reflexivity.
  - replace ((List.length rq <? got)%nat) with true by (symmetry; apply Nat.ltb_lt; exact L). cbn [andb orb].
    replace (List.length rq <=? got)%nat with true by (symmetry; apply Nat.leb_le; lia). replace (got <? List.length rq)%nat with false by (symmetry; apply Nat.ltb_ge; lia). cbn [andb orb].
    destruct (Nat.leb_spec (List.length rq) (List.length op)) as [M|M].
    + replace (existsb _ _) with false.
      * destruct (Nat.ltb_spec (List.length (rq ++ op)) got) as [Q|Q]; [replace (got <=? _)%nat with false by (symmetry; apply Nat.leb_gt; exact Q)|replace (got <=? _)%nat with true by (symmetry; apply Nat.leb_le; exact Q)]; reflexivity.
      * symmetry. apply existsb_false_Forall. unfold last_n. rewrite skipn_app, skipn_all2 by (rewrite app_length; lia). cbn [app].
        apply Forall_forall. intros q I. rewrite Forall_forall in Fo. rewrite (Fo q); [reflexivity|]. rewrite <- (firstn_skipn (List.length (rq ++ op) - List.length rq - List.length rq) op). apply in_app_iff. right. exact I.
    + replace (existsb _ _) with true; [reflexivity|]. symmetry. apply existsb_exists. destruct (exists_last (l := rq)) as (rq' & q & ->); [intros ->; cbn in M; lia|].
      exists q. split; [|apply Forall_app in Fr as [_ Fr]; inversion Fr; subst; rewrite H1; reflexivity].
      unfold last_n. rewrite skipn_app. apply in_app_iff. left. rewrite skipn_app. apply in_app_iff. right. replace (_ - _ - _)%nat with O; [left; reflexivity|]. rewrite !app_length in *. cbn in *. lia.
Qed.
Theorem C26_count_check_partial : forall got rq op, Forall (fun q => fp_optional q = false) rq -> Forall (fun q => fp_optional q = true) op ->
  ffi_check got (rq ++ op) =
    if (got <=? List.length rq)%nat || (List.length rq <=? List.length op)%nat then
      if (List.length rq <=? got)%nat && (got <=? List.length (rq ++ op))%nat then Ok tt else Err (XFfiCount (List.length rq) (List.length (rq ++ op)) got)
    else Panic.
Proof. exact ffi_exact. Qed.
Print Assumptions C26_count_check_partial.

(** C26. So one argument too many for any function with only required parameters crashes the compiler. *)
Lemma too_many en n p sc g args x fn : mget g (p_funcs p) = Some fn -> fn_params fn <> [] -> Forall (fun q => fp_optional q = false) (fn_params fn) ->
  (List.length (fn_params fn) < List.length args)%nat -> cexpr en n p sc (ACall g args) x = Panic.
Proof.
  intros Eg Ne Fr L. cbn [cexpr]. rewrite Eg. pose proof (ffi_exact (List.length args) (fn_params fn) [] Fr (Forall_nil _)) as H. rewrite app_nil_r in H. rewrite H.
  replace (List.length args <=? _)%nat with false by (symmetry; apply Nat.leb_gt; exact L). destruct (fn_params fn); [congruence|]. reflexivity.
Qed.
Theorem C26_too_many_refuted : forall en n p sc g args x fn, mget g (p_funcs p) = Some fn -> fn_params fn <> [] -> Forall (fun q => fp_optional q = false) (fn_params fn) ->
  (List.length (fn_params fn) < List.length args)%nat -> cexpr en n p sc (ACall g args) x = Panic.
Proof. exact too_many. Qed.
Print Assumptions C26_too_many_refuted.
(** The prelude's functions (prelude/len.rs, pad.rs, ...). *)
Definition len_resolver : resolver := {| r_prelude := [(bs "len", {| fn_params := [{| fp_type := None; fp_optional := false |}]; fn_ret := FScalar (be U64) |});
    (bs "pad", {| fn_params := [{| fp_type := Some (FScalar (be U64)); fp_optional := false |}; {| fp_type := Some (FScalar (be U64)); fp_optional := false |}]; fn_ret := FScalar (be U64) |})];
  r_type := fun _ => Ok None; r_xform := fun x => Ok (if name_eqb x (bs "gz") then Some [] else None); r_func := fun _ => Ok None; r_norm := fun x => Ok x; r_load := fun _ => Ok None |}.
Example C26_nonvacuous : run_ok (analyse string_env len_resolver 20 2 (bs "import_ffi gz as transform; type t = container { n: u64 = len(d), d: u8[n] -> gz {n > 3}, x: u8[pad(4, n)] };")) = true /\
  analyse string_env len_resolver 20 2 (bs "type t = container { n: u64 = len(n, n) };") = Panic /\
  analyse string_env len_resolver 20 2 (bs "type t = container { n: u64 = len() };") = Err (XFfiCount 1 1 0).
Proof. split; [|split]; vm_compute; reflexivity. Qed.
