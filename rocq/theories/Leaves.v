(** Property C65: how large a decoded value can be. *)
From Verif Require Import ScalarFacts DecRef EncRef RtWf RoundTrip World CoderFacts.
From Coq Require Import Lia.
Open Scope string_scope. Open Scope Z_scope. Open Scope list_scope.

(** The numbers, booleans, enum values, flag sets and characters in a value. *)
Fixpoint leaves (v : val) : nat :=
  match v with
  | VStr s => List.length s
  | VArr l => (fix all (l : list val) : nat := match l with [] => O | v :: l => (leaves v + all l)%nat end) l
  | VOpt None => O
  | VOpt (Some v) => leaves v
  | VTup v => leaves v
  | VVariant _ _ v => leaves v
  | VStruct _ fs | VVariantS _ _ fs => (fix all (l : list (string * val)) : nat := match l with [] => O | (_, v) :: l => (leaves v + all l)%nat end) fs
  | VInt _ _ | VBool _ | VF32 _ | VF64 _ | VEnum _ _ | VBits _ _ => 1%nat
  end.
(** What is read is no larger than the bytes taken for it. *)
Definition small {A} (size : A -> nat) (f : list Z -> res ioerr (A * list Z)) : Prop := forall l x rest, f l = Ok (x, rest) -> (size x + List.length rest <= List.length l)%nat.
(** The foreign types of a world, and transforms that do not expand what they read. *)
Definition small_world (w : world) : Prop := (forall f vs, small leaves (w_fdec w f vs)) /\ (forall x vs, small (@List.length Z) (w_xdec w x vs)).

Fixpoint sum (l : list val) : nat := match l with [] => O | v :: l => (leaves v + sum l)%nat end.
Fixpoint fsum (l : list (string * val)) : nat := match l with [] => O | (_, v) :: l => (leaves v + fsum l)%nat end.
Lemma leaves_arr l : leaves (VArr l) = sum l.
Proof. cbn [leaves]. induction l as [|v l IH]; [reflexivity|]. cbn [sum]. rewrite <- IH. reflexivity. Qed.
Lemma leaves_struct n fs : leaves (VStruct n fs) = fsum fs.
Proof. cbn [leaves]. induction fs as [|[x v] l IH]; [reflexivity|]. cbn [fsum]. rewrite <- IH. reflexivity. Qed.
Lemma leaves_variant n d fs : leaves (VVariantS n d fs) = fsum fs.
Proof. cbn [leaves]. induction fs as [|[x v] l IH]; [reflexivity|]. cbn [fsum]. rewrite <- IH. reflexivity. Qed.
Lemma fsum_app a b : fsum (a ++ b) = (fsum a + fsum b)%nat.
Proof. induction a as [|[x v] a IH]; [reflexivity|]. cbn [app fsum]. rewrite IH. lia. Qed.
Lemma fsum_some l : fsum (wrap_some l) = fsum l.
Proof. induction l as [|[x v] l IH]; [reflexivity|]. cbn [wrap_some map fsum fst snd leaves]. unfold wrap_some in IH. rewrite IH. reflexivity. Qed.
Lemma fsum_none l : fsum (all_none l) = O.
Proof. induction l as [|x l IH]; [reflexivity|]. cbn [all_none map fsum leaves]. unfold all_none in IH. rewrite IH. reflexivity. Qed.
Lemma sum_ones l : (forall v, In v l -> leaves v = 1%nat) -> sum l = List.length l.
Proof. induction l as [|v l IH]; intros H; [reflexivity|]. cbn [sum List.length]. rewrite IH, (H v); [reflexivity|left; reflexivity|intros u Hu; apply H; right; exact Hu]. Qed.
Lemma prim_leaf pr b : leaves (prim_of pr b) = 1%nat. Proof. destruct pr; reflexivity. Qed.
Lemma repr_leaf d b v : repr_of d b = Ok v -> leaves v = 1%nat.
Proof. destruct d; cbn [repr_of]; intros H; bi H x Ex; apply Ok_inj in H; subst v; reflexivity. Qed.
Lemma chunks_len n k l : List.length (chunks n k l) = n.
Proof. revert l. induction n as [|n IH]; intros l; [reflexivity|]. cbn [chunks List.length]. rewrite IH. reflexivity. Qed.
Lemma prims_sum pr l : sum (map (prim_of pr) l) = List.length l.
Proof. rewrite sum_ones; [apply map_length|]. intros v H. apply in_map_iff in H as (b & <- & _). apply prim_leaf. Qed.
Lemma reprs_sum d l vs : mapM (repr_of d) l = Ok vs -> sum vs = List.length l.
Proof. revert vs. induction l as [|b l IH]; cbn [mapM]; intros vs E; [apply Ok_inj in E; subst; reflexivity|]. bi E v Ev. bi E vs' Evs. apply Ok_inj in E. subst vs. cbn [sum List.length]. rewrite (repr_leaf _ _ _ Ev), (IH _ Evs). reflexivity. Qed.
Lemma size_pos s : (1 <= size s)%nat. Proof. destruct s; cbn; lia. Qed.
Lemma prim_pos pr : (1 <= prim_size pr)%nat. Proof. destruct pr; cbn [prim_size]; try lia. apply size_pos. Qed.
Lemma div_small n k : (1 <= k)%nat -> (n / k <= n)%nat.
Proof. intros H. apply Nat.div_le_upper_bound; [lia|]. nia. Qed.

Section Small.
  Variable w : world.
  Variable p : program.
  Variable rf : nat.
  Hypothesis Hw : small_world w.
  Variable inp : string -> option val.
  Variable rec : string -> list val -> list Z -> res ioerr (val * list Z).
  Hypothesis Hrec : forall n vs, small leaves (rec n vs).

  Lemma small_times f : small leaves f -> forall n, small sum (sd_times f n).
  Proof.
    intros H. induction n as [|n IH]; intros l x rest E; cbn [sd_times] in E; [apply Ok_inj in E; injection E as <- <-; cbn; lia|].
    bi E y Ey. destruct y as [v l1]. bi E z Ez. destruct z as [vs l2]. apply Ok_inj in E. injection E as <- <-. apply H in Ey. apply IH in Ez. cbn [sum]. lia.
  Qed.
  Lemma small_all f : small leaves f -> forall n l vs, sd_all f n l = Ok vs -> (sum vs <= List.length l)%nat.
  Proof.
    intros H. induction n as [|n IH]; intros l vs E; [discriminate E|]. cbn [sd_all] in E. destruct l as [|z l]; [apply Ok_inj in E; subst; cbn; lia|].
    bi E y Ey. destruct y as [v l1]. destruct (_ <? _)%nat; [|discriminate E]. bi E q Eqq. apply Ok_inj in E. subst vs. apply H in Ey. apply IH in Eqq. cbn [sum]. lia.
  Qed.
  Lemma small_until fill term f : small leaves f -> forall n, small sum (sd_until fill term f n).
  Proof.
    intros H. induction n as [|n IH]; intros l x rest E; [discriminate E|]. cbn [sd_until] in E. destruct (_ =? 0)%nat; [apply Ok_inj in E; injection E as <- <-; cbn; lia|].
    destruct (_ <? _)%nat; [discriminate E|]. destruct (zlist_eqb _ _); [apply Ok_inj in E; injection E as <- <-; rewrite skipn_length; cbn [sum]; lia|].
    bi E y Ey. destruct y as [v l1]. destruct (_ <? _)%nat; [|discriminate E]. bi E z Ez. destruct z as [vs l2]. apply Ok_inj in E. injection E as <- <-. apply H in Ey. apply IH in Ez. cbn [sum]. lia.
  Qed.
  Lemma small_prim pr : small leaves (sd_prim pr).
  Proof. intros l x rest E. unfold sd_prim in E. bi E y Ey. destruct y as [a r]. apply Ok_inj in E. injection E as <- <-. apply read_exact_ok in Ey as (-> & L). rewrite prim_leaf, app_length. pose proof (prim_pos pr). lia. Qed.
  Lemma small_repr d : small leaves (sd_repr d).
  Proof. intros l x rest E. unfold sd_repr in E. bi E y Ey. destruct y as [a r]. bi E v Ev. apply Ok_inj in E. injection E as <- <-. apply read_exact_ok in Ey as (-> & L). rewrite (repr_leaf _ _ _ Ev), app_length. pose proof (size_pos (es_scalar (repr_rep d))). lia. Qed.

  Lemma small_type t en : small leaves (sd_type w p rf inp rec en t).
  Proof.
    induction t as [e| | | |d|d|x|x args|el IH lc|len tg items] using ty_ind; cbn [Spec.sd_type]; try (apply small_prim); try (apply (small_repr (RpEnum d))); try (apply (small_repr (RpBits d))).
    - apply (proj1 Hw).
    - intros l v rest E. bi E vs Evs. destruct (p x) as [[? [] ?]|]; try (apply (Hrec _ _ _ _ _ E)). apply (proj1 Hw _ _ _ _ _ E).
    - intros l v rest E. unfold sd_arr in E. destruct lc as [e| |e].
      + bi E nv Env. destruct (kind_of (resolved p rf el)) as [pr|d|].
        * assert (E' : exists n, read_prims pr n l = Ok (v, rest)) by (destruct pr; [discriminate E|..]; bi E n En; eauto). destruct E' as [n E']. unfold read_prims in E'. bi E' y Ey. destruct y as [raw r]. apply Ok_inj in E'. injection E' as <- <-.
          apply read_exact_ok in Ey as (-> & L). rewrite leaves_arr, prims_sum, chunks_len, app_length. pose proof (div_small n _ (prim_pos pr)). lia.
        * bi E n En. unfold read_reprs in E. bi E y Ey. destruct y as [raw r]. bi E vs Evs. apply Ok_inj in E. injection E as <- <-. apply read_exact_ok in Ey as (-> & L).
          rewrite leaves_arr, (reprs_sum _ _ _ Evs), chunks_len, app_length. pose proof (div_small n _ (size_pos (es_scalar (repr_rep d)))). lia.
        * bi E n En. bi E y Ey. destruct y as [vs r]. apply Ok_inj in E. injection E as <- <-. rewrite leaves_arr. apply (small_times _ IH n _ _ _ Ey).
      + destruct (kind_of (resolved p rf el)) as [pr|d|].
        * assert (E' : v = VArr (map (prim_of pr) (sd_chunks (prim_size pr) l)) /\ rest = []) by (destruct pr; [discriminate E|..]; apply Ok_inj in E; injection E as <- <-; auto). destruct E' as [-> ->].
          rewrite leaves_arr, prims_sum. unfold sd_chunks. rewrite chunks_len. cbn [List.length]. pose proof (div_small (List.length l) _ (prim_pos pr)). lia.
        * bi E vs Evs. apply Ok_inj in E. injection E as <- <-. rewrite leaves_arr, (reprs_sum _ _ _ Evs). unfold sd_chunks. rewrite chunks_len. cbn [List.length]. pose proof (div_small (List.length l) _ (size_pos (es_scalar (repr_rep d)))). lia.
        * bi E vs Evs. apply Ok_inj in E. injection E as <- <-. rewrite leaves_arr. apply (small_all _ IH) in Evs. cbn [List.length]. lia.
      + bi E tv Et. bi E tb Etb. bi E y Ey. destruct y as [vs r]. apply Ok_inj in E. injection E as <- <-. rewrite leaves_arr. apply (small_until _ _ _ IH _ _ _ _ Ey).
    - intros l v rest E. discriminate E.
  Qed.

  Lemma small_xs {A} (sz : A -> nat) en xs (k : list Z -> res ioerr (A * list Z)) : small sz k -> small sz (sd_xs w inp en xs k).
  Proof.
    intros H. induction xs as [|x xs IH]; [exact H|]. intros l y rest E. cbn [sd_xs] in E. bi E b Eb. destruct b; [|apply (IH _ _ _ E)].
    bi E vs Evs. bi E z Ez. destruct z as [plain r]. bi E q Eqq. destruct q as [a r2]. apply Ok_inj in E. injection E as <- <-. apply (proj2 Hw) in Ez. apply IH in Eqq. lia.
  Qed.
  Lemma small_limit {A} (sz : A -> nat) en lo (k : list Z -> res ioerr (A * list Z)) : small sz k -> small sz (sd_limit w inp en lo k).
  Proof.
    intros H. unfold sd_limit. destruct lo as [e|]; [|exact H]. intros l x rest E. bi E v Ev. bi E n En. bi E y Ey. destruct y as [y r]. apply Ok_inj in E. injection E as <- <-.
    apply H in Ey. rewrite app_length. rewrite <- (firstn_skipn n l) at 2. rewrite app_length. lia.
  Qed.
  Lemma small_items items : Forall (fun f => forall en, small fsum (sd_complex w p rf inp rec (fst f) (snd f) en)) items -> forall en, small fsum (sd_items w inp (map (sd_item w p rf inp rec) items) en).
  Proof.
    induction 1 as [|[a t] items Hf _ IH]; intros en l x rest E; cbn [map sd_items] in E; [apply Ok_inj in E; injection E as <- <-; cbn; lia|].
    bi E y Ey. destruct y as [vs l1]. bi E z Ez. destruct z as [vs' l2]. apply Ok_inj in E. injection E as <- <-. apply IH in Ez. rewrite fsum_app.
    enough (fsum vs + List.length l1 <= List.length l)%nat by lia. unfold sd_field, sd_item in Ey. cbn [fst snd] in *.
    pose proof (small_xs fsum en (rev (fa_xs a)) _ (Hf en)) as B. destruct (fa_cond a) as [e|]; [|apply (B _ _ _ Ey)]. bi Ey c Ec. destruct (fa_pad a); [apply (B _ _ _ Ey)|]. bi Ey b Eb. destruct b.
    - bi Ey q Eqq. destruct q as [vs0 r0]. apply Ok_inj in Ey. injection Ey as <- <-. rewrite fsum_some. apply (B _ _ _ Eqq).
    - apply Ok_inj in Ey. injection Ey as <- <-. rewrite fsum_none. lia.
  Qed.
  Lemma small_complex t : forall a en, small fsum (sd_complex w p rf inp rec a t en).
  Proof.
    assert (PAD : forall t a en, fa_pad a = true -> small fsum (sd_complex w p rf inp rec a t en)).
    { intros t0 a en Hp l x rest E. assert (X : exists n r, x = [] /\ read_exact n l = Ok (r, rest)).
      { destruct t0; cbn [sd_complex] in E; rewrite Hp in E; try discriminate E. destruct l0; try discriminate E. bi E v Ev. bi E n En. bi E y Ey. destruct y as [r r1]. apply Ok_inj in E. injection E as <- <-. eauto. }
      destruct X as (n & r & -> & Er). apply read_exact_ok in Er as (-> & _). rewrite app_length. cbn [fsum]. lia. }
    induction t using ty_ind'; intros a en; (destruct (fa_pad a) eqn:Hp; [apply PAD, Hp|]).
    1-9: intros l' x rest E; cbn [sd_complex] in E; rewrite Hp in E; bi E y Ey; destruct y as [v r1]; apply Ok_inj in E; injection E as <- <-; apply small_type in Ey; cbn [fsum]; lia.
    intros l x rest E. cbn [sd_complex] in E. rewrite Hp in E. destruct tagged; [discriminate E|]. revert l x rest E. apply small_limit, (small_items items). eapply Forall_impl; [|exact H]. intros f Hf en0. apply Hf.
  Qed.
  Lemma small_variants nm items : small leaves (sd_variants w p rf inp rec nm items).
  Proof.
    induction items as [|[a t] items IH]; intros l x rest E; [discriminate E|]. cbn [sd_variants] in E. bi E b Eb. destruct b; [|apply (IH _ _ _ E)]. bi E y Ey. destruct y as [vs r]. apply (small_xs fsum [] _ _ (small_complex t a [])) in Ey.
    destruct (is_cont t); [apply Ok_inj in E; injection E as <- <-; rewrite leaves_variant; exact Ey|]. destruct vs as [|[n v] vs]; [discriminate E|]. apply Ok_inj in E. injection E as <- <-. cbn [fsum leaves] in *. lia.
  Qed.
  Lemma small_top d : small leaves (sd_top w p rf inp rec d).
  Proof.
    unfold sd_top. apply (small_xs leaves [] (rev (fa_xs (d_attr d)))). intros l x rest E. destruct (d_ty d) as [e| | | |de|db|f|n args|el lc|lo tg items].
    5-7: apply (small_type _ _ _ _ _ E).
    1-6: bi E y Ey; destruct y as [v r]; apply Ok_inj in E; injection E as <- <-; apply small_type in Ey; exact Ey.
    destruct tg; [revert l x rest E; apply small_limit, small_variants|]. bi E y Ey. destruct y as [vs r]. apply Ok_inj in E. injection E as <- <-. rewrite leaves_struct. revert l vs r Ey. apply small_limit, small_items. apply Forall_forall. intros f _ en. apply small_complex.
  Qed.
End Small.

Theorem sdecode_small w p rf : small_world w -> forall k n args, small leaves (sdecode w p rf k n args).
Proof.
  intros Hw. induction k as [|k IH]; intros n args l x rest E; [discriminate E|]. cbn [sdecode] in E. bi E d Ed. bi E inp Ei. exact (small_top w p rf Hw _ _ IH d _ _ _ E).
Qed.
