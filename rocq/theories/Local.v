(** Self-delimiting types: the reader does not look beyond its own bytes, and notices
    when they are cut short. *)
From Verif Require Import ScalarFacts DecRef EncRef RtWf RoundTrip.
Open Scope string_scope. Open Scope Z_scope. Open Scope list_scope.

(** [f] reads a self-delimiting prefix: more input after it changes nothing, and with
    less input it either reports end of input or had already finished. *)
Definition local {A} (f : list Z -> res ioerr (A * list Z)) : Prop :=
  forall l a rest, f l = Ok (a, rest) ->
    (forall l', f (l ++ l') = Ok (a, rest ++ l'))
    /\ (forall l1 l2, l = l1 ++ l2 -> f l1 = Err EEof \/ exists r1, f l1 = Ok (a, r1) /\ rest = r1 ++ l2).

(** Which types are: no [..] and no terminated array, no foreign type or transform
    outside [lf], [lx]; references to types in [lt]. *)
Section LocalTy.
  Variable p : program.
  Variable lt lf lx : string -> bool.
  Definition local_xs (xs : list xuse) : bool := forallb (fun x => lx (x_name x)) xs.
  Fixpoint local_ty (t : ty) : bool :=
    match t with
    | TForeign f => lf f
    | TRef n _ => match foreign_of p n with Some f => lf f | None => lt n end
    | TArr el (LFixed _) => local_ty el
    | TArr _ _ => false
    | TCont _ _ items => forallb (fun f => local_xs (fa_xs (fst f)) && local_ty (snd f)) items
    | _ => true
    end.
  Definition local_program : Prop :=
    forall n d, p n = Some d -> lt n = true -> local_xs (fa_xs (d_attr d)) = true /\ local_ty (d_ty d) = true.
  Definition local_world (w : world) : Prop :=
    (forall f vs, lf f = true -> local (w_fdec w f vs)) /\ (forall x vs, lx x = true -> local (w_xdec w x vs)).
End LocalTy.

Lemma local_ok {A} (a : A) : local (fun l => Ok (a, l)).
Proof. intros l a' rest H. apply Ok_inj in H. injection H as <- <-. split; [reflexivity|]. intros l1 l2 ->. right. eauto. Qed.
Lemma local_never {A} (f : list Z -> res ioerr (A * list Z)) : (forall l r, f l <> Ok r) -> local f.
Proof. intros H l a rest E. exfalso. eapply H. exact E. Qed.
Lemma local_pre {A B} (r : res ioerr B) (f : B -> list Z -> res ioerr (A * list Z)) : (forall b, local (f b)) -> local (fun l => let! b := r in f b l).
Proof. intros H. destruct r as [b| | |]; cbn [bind]; [apply H| | |]; apply local_never; intros ? ? ?; discriminate. Qed.
Lemma local_bind {A B} (f : list Z -> res ioerr (A * list Z)) (h : A -> list Z -> res ioerr (B * list Z)) :
  local f -> (forall a, local (h a)) -> local (fun l => let! (a, l) := f l in h a l).
Proof.
  intros Hf Hh l b rest H. bi H y Ey. destruct y as [a l1]. destruct (Hf _ _ _ Ey) as (F1 & F2). destruct (Hh a _ _ _ H) as (H1 & H2). split.
  - intros l'. rewrite F1. cbn [bind]. apply H1.
  - intros l0 l2 ->. destruct (F2 _ _ eq_refl) as [E|(r1 & E & ->)].
    + left. rewrite E. reflexivity.
    + rewrite E. cbn [bind]. apply H2. reflexivity.
Qed.
Lemma local_map {A B} (f : list Z -> res ioerr (A * list Z)) (h : A -> res ioerr B) : local f -> local (fun l => let! (a, l) := f l in let! b := h a in Ok (b, l)).
Proof. intros H. apply local_bind; [assumption|]. intros a. apply local_pre. intros b. apply local_ok. Qed.
Lemma local_ext {A} (f h : list Z -> res ioerr (A * list Z)) : (forall l, f l = h l) -> local h -> local f.
Proof.
  intros E H l a rest Hl. rewrite E in Hl. destruct (H _ _ _ Hl) as (H1 & H2). split; intros; rewrite E; auto.
Qed.
Lemma local_read_exact n : local (read_exact n).
Proof.
  intros l a rest H. assert (L : l = a ++ rest /\ List.length a = n).
  { unfold read_exact in H. destruct (Nat.leb_spec n (List.length l)); [|discriminate H]. apply Ok_inj in H. injection H as <- <-. rewrite firstn_skipn, firstn_length_le by assumption. auto. }
  destruct L as (-> & L). split.
  - intros l'. rewrite <- app_assoc. apply read_exact_app. assumption.
  - intros l1 l2 E. unfold read_exact. destruct (Nat.leb_spec n (List.length l1)); [right|left; reflexivity].
    exists (skipn n l1). assert (E2 : a = firstn n l1).
    { assert (X : firstn n (a ++ rest) = firstn n (l1 ++ l2)) by (rewrite E; reflexivity). rewrite firstn_app_exact in X by assumption. rewrite X. rewrite firstn_app. replace (n - List.length l1)%nat with 0%nat by lia. cbn. apply app_nil_r. }
    split; [congruence|]. rewrite <- (firstn_skipn n l1) in E. rewrite <- E2, <- app_assoc in E. apply app_inv_head in E. exact E.
Qed.
Lemma local_times f n : local f -> local (sd_times f n).
Proof.
  intros H. induction n as [|n IH]; cbn [sd_times]; [apply local_ok|].
  apply local_bind; [assumption|]. intros v. apply local_bind; [assumption|]. intros vs. apply local_ok.
Qed.

Section Local.
  Variable w : world.
  Variable p : program.
  Variable rf : nat.
  Variable lt lf lx : string -> bool.
  Hypothesis Hw : local_world lf lx w.
  Variable inputs : string -> option val.
  Variable rec : string -> list val -> list Z -> res ioerr (val * list Z).
  Hypothesis Hrec : forall n vs, lt n = true -> local (rec n vs).

  Lemma local_prim pr : local (sd_prim pr).
  Proof. unfold sd_prim. apply (local_bind (read_exact _) (fun a l => Ok (prim_of pr a, l))); [apply local_read_exact|]. intros a. apply local_ok. Qed.
  Lemma local_repr d : local (sd_repr d).
  Proof. unfold sd_repr. apply (local_map (read_exact _)). apply local_read_exact. Qed.

  Lemma local_type en t : local_ty p lt lf lx t = true -> local (sd_type w p rf inputs rec en t).
  Proof.
    induction t using ty_ind'; intros Ht; cbn [sd_type]; try apply local_prim; try apply local_repr.
    - cbn [local_ty] in Ht. apply Hw. assumption.
    - apply local_pre. intros vs. cbn [local_ty] in Ht. unfold foreign_of in Ht. destruct (p n) as [[? t ?]|]; [destruct t|]; try (apply Hrec; assumption). apply Hw. assumption.
    - cbn [local_ty] in Ht. destruct l as [e| |e]; try discriminate Ht. unfold sd_arr. apply local_pre. intros nv.
      destruct (kind_of (resolved p rf t)) as [pr|d|].
      + assert (X : local (fun l => let! n := arr_size (w_chk w) (prim_size pr) nv in read_prims pr n l)).
        { apply local_pre. intros n. unfold read_prims. apply (local_bind (read_exact _) (fun a l => Ok (VArr (map (prim_of pr) (chunks (n / prim_size pr) (prim_size pr) a)), l))); [apply local_read_exact|]. intros a. apply local_ok. }
        destruct pr; try exact X. apply local_never. intros ? ? ?. discriminate.
      + apply local_pre. intros n. unfold read_reprs. eapply local_bind; [apply local_read_exact|]. intros a. apply local_pre. intros vs. apply local_ok.
      + apply local_pre. intros n. apply (local_bind (sd_times _ n) (fun vs l => Ok (VArr vs, l))); [apply local_times; auto|]. intros a. apply local_ok.
    - apply local_never. intros ? ? ?. discriminate.
  Qed.
  Lemma local_sd_xs {A} en xs (k : list Z -> res ioerr (A * list Z)) : local_xs lx xs = true -> local k -> local (sd_xs w inputs en xs k).
  Proof.
    intros Hx Hk. induction xs as [|x xs IH]; cbn [sd_xs]; [assumption|]. cbn [local_xs forallb] in Hx. apply andb_true_iff in Hx as (Hx & Hx').
    apply local_pre. intros b. destruct b; [|apply IH; assumption]. apply local_pre. intros vs.
    apply (local_bind (w_xdec w (x_name x) vs) (fun plain rest => let! (a, _) := sd_xs w inputs en xs k plain in Ok (a, rest))); [apply Hw; assumption|].
    intros plain. apply local_ext with (h := fun rest => let! r := sd_xs w inputs en xs k plain in Ok (fst r, rest)); [intros l; destruct (sd_xs w inputs en xs k plain) as [[? ?]| | |]; reflexivity|].
    apply local_pre. intros b. apply local_ok.
  Qed.
  Lemma local_limit {A} en len (k : list Z -> res ioerr (A * list Z)) : local k -> local (sd_limit w inputs en len k).
  Proof.
    intros Hk. unfold sd_limit. destruct len as [e|]; [|assumption]. apply local_pre. intros v. apply local_pre. intros n l a rest H. bi H y Ey. destruct y as [a0 r0]. apply Ok_inj in H. injection H as <- <-.
    destruct (Hk _ _ _ Ey) as (K1 & K2). split.
    - intros l'. destruct (Nat.le_gt_cases n (List.length l)) as [Hn|Hn].
      + rewrite firstn_app, skipn_app. replace (n - List.length l)%nat with 0%nat by lia. cbn [firstn skipn]. rewrite app_nil_r, Ey. cbn [bind]. rewrite app_assoc. reflexivity.
      + rewrite firstn_all2 in Ey, K1 by lia. rewrite firstn_app, skipn_app, (firstn_all2 l), (skipn_all2 l) by lia. rewrite K1. cbn [bind]. rewrite app_nil_r. cbn [app]. rewrite <- app_assoc, firstn_skipn. reflexivity.
    - intros l1 l2 ->. destruct (K2 (firstn n l1) (firstn (n - List.length l1) l2)) as [E|(r1 & E & ->)].
      + apply firstn_app.
      + left. rewrite E. reflexivity.
      + right. rewrite E. cbn [bind]. eexists. split; [reflexivity|]. rewrite skipn_app, <- !app_assoc. f_equal.
        destruct (Nat.le_gt_cases n (List.length l1)) as [Hn|Hn].
        * replace (n - List.length l1)%nat with 0%nat by lia. cbn [firstn skipn app]. reflexivity.
        * rewrite (skipn_all2 l1) by lia. cbn [app]. apply firstn_skipn.
  Qed.
  Lemma local_field f en : local_xs lx (fa_xs (fst (fst f))) = true -> (forall en, local (snd f en)) -> local (sd_field w inputs f en).
  Proof.
    destruct f as [[a t] k]. cbn [fst snd]. intros Hx Hk. unfold sd_field.
    assert (B : local (sd_xs w inputs en (rev (fa_xs a)) (k en))).
    { apply local_sd_xs; [|apply Hk]. unfold local_xs in *. rewrite forallb_forall in *. intros x Hi. apply Hx. apply in_rev. assumption. }
    destruct (fa_cond a); [|exact B]. apply local_pre. intros c. destruct (fa_pad a); [exact B|]. apply local_pre. intros b. destruct b; [|apply local_ok].
    apply (local_bind (sd_xs w inputs en (rev (fa_xs a)) (k en)) (fun vs l => Ok (wrap_some vs, l))); [exact B|]. intros vs. apply local_ok.
  Qed.
  Lemma local_items its : Forall (fun f => local_xs lx (fa_xs (fst (fst f))) = true /\ (forall en, local (snd f en))) its -> forall en, local (sd_items w inputs its en).
  Proof.
    induction 1 as [|f its (H1 & H2) _ IH]; intros en; cbn [sd_items]; [apply local_ok|].
    apply local_bind; [apply local_field; assumption|]. intros vs. apply local_bind; [apply IH|]. intros vs'. apply local_ok.
  Qed.
  Lemma local_complex t : local_ty p lt lf lx t = true -> forall a en, local (sd_complex w p rf inputs rec a t en).
  Proof.
    induction t using ty_ind'; intros Ht a en;
      try (pose proof (local_type en _ Ht) as LT; cbn [sd_complex]; destruct (fa_pad a); [apply local_never; intros ? ? ?; discriminate|];
           eapply local_bind; [exact LT|]; intros v; apply local_ok).
    - pose proof (local_type en _ Ht) as LT. cbn [sd_complex]. destruct (fa_pad a).
      + destruct l as [e| |e]; try (apply local_never; intros ? ? ?; discriminate). apply local_pre. intros v. apply local_pre. intros n.
        apply (local_bind (read_exact n) (fun _ rest => Ok ([], rest))); [apply local_read_exact|]. intros a0. apply local_ok.
      + eapply local_bind; [exact LT|]. intros v. apply local_ok.
    - cbn [sd_complex]. destruct (fa_pad a); [apply local_never; intros ? ? ?; discriminate|]. destruct tagged; [apply local_never; intros ? ? ?; discriminate|].
      apply local_limit. apply local_items. cbn [local_ty] in Ht. rewrite forallb_forall in Ht. rewrite Forall_forall in H. apply Forall_forall. intros f Hf. apply in_map_iff in Hf as (f0 & <- & Hi).
      cbn [fst snd]. specialize (Ht _ Hi). apply andb_true_iff in Ht as (T1 & T2). split; [assumption|]. intros en0. apply H; auto.
  Qed.
  Lemma local_variants name items : forallb (fun f => local_xs lx (fa_xs (fst f)) && local_ty p lt lf lx (snd f)) items = true -> local (sd_variants w p rf inputs rec name items).
  Proof.
    induction items as [|[a t] items IH]; cbn [sd_variants forallb fst snd]; intros H; [apply local_never; intros ? ? ?; discriminate|].
    rewrite !andb_true_iff in H. destruct H as ((H1 & H2) & H3). apply local_pre. intros b. destruct b; [|auto].
    apply local_bind.
    - apply local_sd_xs; [|apply local_complex; auto]. unfold local_xs in *. rewrite forallb_forall in *. intros x Hi. apply H1. apply in_rev. assumption.
    - intros vs. destruct (is_cont t); [apply local_ok|]. destruct vs as [|[? ?] ?]; [apply local_never; intros ? ? ?; discriminate|apply local_ok].
  Qed.
  Lemma local_top d : local_xs lx (fa_xs (d_attr d)) = true -> local_ty p lt lf lx (d_ty d) = true -> local (sd_top w p rf inputs rec d).
  Proof.
    intros Hx Ht. unfold sd_top. apply local_sd_xs.
    { unfold local_xs in *. rewrite forallb_forall in *. intros x Hi. apply Hx. apply in_rev. assumption. }
    destruct (d_ty d) as [e| | | |de|db|f|m args'|el lc|len tg items] eqn:Et; try (apply local_type; assumption);
      try (eapply local_bind; [apply local_type; eassumption|]; intros v; apply local_ok).
    destruct tg; [apply local_limit, local_variants; exact Ht|].
    apply (local_bind (sd_limit w inputs [] len _) (fun vs l => Ok (VStruct (fa_name (d_attr d)) vs, l))); [|intros; apply local_ok].
    apply local_limit, local_items. cbn [local_ty] in Ht. rewrite forallb_forall in Ht. apply Forall_forall. intros f Hf. apply in_map_iff in Hf as (f0 & <- & Hi). unfold sd_item. cbn [fst snd].
    specialize (Ht _ Hi). apply andb_true_iff in Ht as (T1 & T2). split; [assumption|]. intros en0. apply local_complex; auto.
  Qed.
End Local.

Theorem sdecode_local w p rf lt lf lx : local_world lf lx w -> local_program p lt lf lx ->
  forall fuel n args, lt n = true -> local (sdecode w p rf fuel n args).
Proof.
  intros Hw Hp. induction fuel as [|fuel IH]; intros n args Hn; cbn [sdecode]; [apply local_never; intros ? ? ?; discriminate|].
  destruct (p n) as [d|] eqn:E; [|apply local_never; intros ? ? ?; discriminate]. cbn [of_some bind]. apply local_pre. intros inp. destruct (Hp _ _ E Hn) as (H1 & H2).
  eapply local_top; eauto.
Qed.
