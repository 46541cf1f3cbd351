(** Valid values are accepted by the checked writer, which returns them unchanged. *)
From Verif Require Sizes SizeFacts.
From Verif Require Import ScalarFacts DecRef EncRef RtWf EnumBitsFacts RoundTrip Relax ValidSpec.
Open Scope string_scope. Open Scope Z_scope. Open Scope list_scope.

Lemma evariant_eqb_refl x : evariant_eqb x x = true.
Proof. destruct x; cbn; rewrite String.eqb_refl, ?Z.eqb_refl; reflexivity. Qed.

Lemma bytes_app a b : bytes_ok a -> bytes_ok b -> bytes_ok (a ++ b).
Proof. intros A B. apply Forall_app. auto. Qed.
Lemma bytes_cat l : Forall bytes_ok l -> bytes_ok (concat l).
Proof. induction 1; cbn [concat]; [constructor|apply bytes_app; assumption]. Qed.
Lemma prim_enc_bytes pr v b : prim_enc pr v = Ok b -> bytes_ok b.
Proof.
  destruct pr, v; cbn [prim_enc]; try discriminate; try (destruct (_ && _) || destruct (in_range _ _); [|discriminate]); intros H; apply Ok_inj in H; subst b; try apply scalar_bytes_ok.
  destruct b0; repeat constructor; cbn; lia.
Qed.
Lemma repr_enc_bytes d v b : repr_enc d v = Ok b -> bytes_ok b.
Proof.
  destruct d, v; cbn [repr_enc]; try discriminate; (destruct (_ : {_ = _} + {_}); [|discriminate]); repeat (match goal with |- match ?x with _ => _ end = _ -> _ => destruct x; [|discriminate] end);
    intros H; apply Ok_inj in H; subst b; apply scalar_bytes_ok.
Qed.
Lemma mapM_result {A B} (f : A -> res ioerr B) (P : B -> Prop) : (forall x y, f x = Ok y -> P y) -> forall l ys, mapM f l = Ok ys -> Forall P ys.
Proof. intros H. induction l as [|x l IH]; cbn [mapM]; intros ys E; [apply Ok_inj in E; subst; constructor|]. bi E y Ey. bi E zs Ez. apply Ok_inj in E. subst ys. constructor; eauto. Qed.
Lemma zlist_eqb_true a : forall b, zlist_eqb a b = true -> a = b.
Proof. induction a as [|x a IH]; intros [|y b]; cbn; try discriminate; [reflexivity|]. intros H. apply andb_true_iff in H as (H & K). apply Z.eqb_eq in H. f_equal; auto. Qed.
Lemma singles (l : list Z) : concat (map (fun z => [z]) l) = l.
Proof. induction l; cbn; congruence. Qed.
Lemma no_term_bytes term zs : (forall i, (i < List.length zs)%nat -> firstn (List.length term) (skipn i (zs ++ term)) <> term) -> no_term term (map (fun z => [z]) zs) = true.
Proof.
  induction zs as [|z zs IH]; intros H; [reflexivity|]. cbn [map no_term]. rewrite !andb_true_iff. split; [split; [reflexivity|]|].
  - apply negb_true_iff. destruct (zlist_eqb _ _) eqn:E; [|reflexivity]. apply zlist_eqb_true in E. exfalso. apply (H 0%nat); [cbn; lia|]. etransitivity; [|exact E]. cbn [skipn]. f_equal. f_equal. symmetry. exact (singles (z :: zs)).
  - apply IH. intros i Hi. apply (H (S i)). cbn. lia.
Qed.
Lemma byte_enc e z : es_scalar e = U8 -> byte_ok z -> prim_enc (PScalar e) (VInt U8 z) = Ok [z].
Proof.
  intros E H. cbn [prim_enc]. rewrite E. assert (R : in_range U8 z = true) by (apply in_range_iff; unfold byte_ok in H; cbn; lia). rewrite R. cbn [scalar_eqb andb]. f_equal.
  unfold scalar_bytes. rewrite E. unfold byte_ok in H. destruct (es_endian e); cbn; f_equal; apply Z.mod_small; lia.
Qed.
Lemma bytes_enc e l : es_scalar e = U8 -> bytes_ok l -> mapM (prim_enc (PScalar e)) (map (VInt U8) l) = Ok (E := ioerr) (map (fun z => [z]) l).
Proof. intros E. induction 1 as [|z l Hz _ IH]; [reflexivity|]. cbn [map mapM]. rewrite (byte_enc e z E Hz). cbn [bind]. rewrite IH. reflexivity. Qed.

Lemma map_fst_combine {A B} (bs : list A) : forall (l : list B), List.length bs = List.length l -> map fst (combine bs l) = bs.
Proof. induction bs as [|b bs IH]; intros [|x l] L; try discriminate; [reflexivity|]. cbn. f_equal. apply IH. now injection L. Qed.
Lemma map_snd_combine {A B} (bs : list A) : forall (l : list B), List.length bs = List.length l -> map snd (combine bs l) = l.
Proof. induction bs as [|b bs IH]; intros [|x l] L; try discriminate; [reflexivity|]. cbn. f_equal. apply IH. now injection L. Qed.

Section Prog.
  Variable w : world.
  Variable p : program.
  Variable rf : nat.
  Variable g : good.
  Variable rec : string -> list val -> val -> Prop.
  Variable erec : string -> list val -> val -> res ioerr (list Z * val).
  Hypothesis Hrec : forall n vs v, rec n vs v -> exists b, erec n vs v = Ok (b, v) /\ bytes_ok b.
  Hypothesis Hsz : forall bf j, Sizes.world_sizes w bf -> forall n vs v b v', foreign_of p n = None -> erec n vs v = Ok (b, v') -> Sizes.within (Sizes.bounds p rf bf j n) (Z.of_nat (List.length b)).
  Variable inp : string -> option val.

  Notation ev := (ev w inp).
  Notation se_type := (se_type w p rf inp (Some g) erec).

  Definition sub (fs en : env) : Prop := forall n x, lookup n fs = Some x -> lookup n en = Some x.
  Lemma ev_sub fs en e v : sub fs en -> val_of w inp fs e = Ok v -> ev en e = Ok v.
  Proof. intros H. unfold val_of, Spec.ev, eval. apply reval_mono. intros n x _. apply H. Qed.

  Lemma has_ty_repr fs d v : has_ty w p rf g rec inp fs (TEnum d) v -> exists b, repr_enc (RpEnum d) v = Ok b /\ repr_canon (RpEnum d) v = true.
  Proof.
    intros (x & z & -> & H1 & H2 & H3). cbn [repr_enc repr_canon]. destruct (enumdef_dec d d); [|congruence]. rewrite H1, H2, H3. rewrite evariant_eqb_refl. eauto.
  Qed.
  Lemma has_ty_bits fs d v : has_ty w p rf g rec inp fs (TBits d) v -> exists b, repr_enc (RpBits d) v = Ok b /\ repr_canon (RpBits d) v = true.
  Proof. intros (z & -> & H1 & H2). cbn [repr_enc repr_canon]. destruct (bitsdef_dec d d); [|congruence]. rewrite H1, H2. eauto. Qed.
  Lemma has_ty_prim fs t pr v : has_ty w p rf g rec inp fs t v -> kind_of t = KPrim pr -> exists b, prim_enc pr v = Ok b.
  Proof.
    intros H K. destruct t; try discriminate K; injection K as <-; cbn [has_ty] in H; cbn [prim_enc].
    - destruct H as (z & -> & Hz). assert (E : scalar_eqb (es_scalar e) (es_scalar e) = true) by (destruct (es_scalar e); reflexivity). rewrite E, Hz. cbn. eauto.
    - destruct H as (x & -> & Hx). rewrite Hx. eauto.
    - destruct H as (x & -> & Hx). rewrite Hx. eauto.
    - destruct H as (x & ->). eauto.
  Qed.

  Lemma mapM_all {A B} (f : A -> res ioerr B) (P : A -> Prop) l : Forall P l -> (forall x, P x -> exists y, f x = Ok y) -> exists ys, mapM f l = Ok ys.
  Proof. induction 1 as [|x l Hx _ IH]; intros H; [exists []; reflexivity|]. destruct (H _ Hx) as (y & Hy), (IH H) as (ys & Hys). cbn [mapM]. rewrite Hy, Hys. cbn. eauto. Qed.

  Lemma all_fst (f : val -> res ioerr (list Z * val)) l : (forall x, In x l -> exists b, f x = Ok (b, x) /\ bytes_ok b /\ b <> []) ->
    exists bs, mapM f l = Ok (combine bs l) /\ List.length bs = List.length l /\ Forall bytes_ok bs /\ Forall (fun b => b <> []) bs.
  Proof.
    induction l as [|x l IH]; intros H; [exists []; repeat split; constructor|]. destruct (H x (or_introl eq_refl)) as (b & Eb & Bb & Nb). destruct IH as (bs & E & L & B & N); [intros y Hy; apply H; right; exact Hy|].
    exists (b :: bs). cbn [mapM combine List.length]. rewrite Eb. cbn [bind]. rewrite E. cbn [bind]. repeat split; [lia|constructor; assumption|constructor; assumption].
  Qed.
  Lemma rest_valid fs en t v : (forall x, has_ty w p rf g rec inp fs t x -> exists b, se_type en t x = Ok (b, x) /\ bytes_ok b) -> has_ty w p rf g rec inp fs (TArr t LRest) v -> exists b, se_type en (TArr t LRest) v = Ok (b, v) /\ bytes_ok b.
  Proof.
    intros Hel. cbn [has_ty]. intros (l & -> & Hnb & Hnl & Hk & Hf). cbn [Spec.se_type se_arr]. rewrite Hk. destruct (kind_of t) as [pr|d|] eqn:K.
    3: { destruct (Hnl eq_refl) as (bf & j & Hbf & Hr). cbn [arr_of bind].
      destruct (all_fst (se_type en t) l) as (bs & E & L & B & N).
      { intros x Hx. rewrite Forall_forall in Hf. destruct (Hel x (Hf _ Hx)) as (b & Eb & Bb). exists b. split; [exact Eb|]. split; [exact Bb|]. intros ->.
        pose proof (proj1 (SizeFacts.type_gives w p rf bf (Sizes.bounds p rf bf j) Hbf inp (Some g) erec (Hsz bf j Hbf) t en x _ _ Eb)) as G. cbn [List.length] in G. lia. }
      rewrite E. cbn [bind]. rewrite map_fst_combine, map_snd_combine by exact L. unfold refuse. replace (all_nonempty bs) with true; [eexists; split; [reflexivity|apply bytes_cat, B]|].
      symmetry. unfold all_nonempty. apply forallb_forall. intros b Hb. rewrite Forall_forall in N. specialize (N _ Hb). destruct b; [congruence|reflexivity]. }
    - destruct (mapM_all (prim_enc pr) _ l Hf (fun x Hx => has_ty_prim _ _ _ _ Hx K)) as (bs & Hbs).
      destruct pr; [destruct t; try discriminate K; congruence| | |]; cbn [arr_of bind]; rewrite Hbs; cbn [bind]; (eexists; split; [reflexivity|apply bytes_cat; eapply mapM_result; [|exact Hbs]; intros ? ?; apply prim_enc_bytes]).
    - assert (Y : forall x, has_ty w p rf g rec inp fs t x -> exists b, repr_enc d x = Ok b /\ repr_canon d x = true).
      { intros x Hx. destruct t; try discriminate K; injection K as <-; [apply (has_ty_repr _ _ _ Hx)|apply (has_ty_bits _ _ _ Hx)]. }
      destruct (mapM_all (repr_enc d) _ l Hf (fun x Hx => let '(ex_intro _ b (conj H _)) := Y x Hx in ex_intro _ b H)) as (bs & Hbs).
      assert (C : forallb (repr_canon d) l = true). { apply forallb_forall. intros x Hx. rewrite Forall_forall in Hf. destruct (Y x (Hf _ Hx)) as (? & ? & ?). assumption. }
      cbn [arr_of bind]. rewrite Hbs. cbn [bind refuse]. rewrite C. eexists. split; [reflexivity|]. apply bytes_cat. eapply mapM_result; [|exact Hbs]. intros ? ?. apply repr_enc_bytes.
  Qed.
  Lemma term_valid fs en t e v : sub fs en -> has_ty w p rf g rec inp fs (TArr t (LTerm e)) v -> exists b, se_type en (TArr t (LTerm e)) v = Ok (b, v) /\ bytes_ok b.
  Proof.
    intros Hs. cbn [has_ty]. intros (e' & zs & ts & -> & Hu & -> & He & Hz & Ht & Hn). cbn [Spec.se_type se_arr]. rewrite (ev_sub _ _ _ _ Hs He). cbn [bind arr_of].
    assert (E : mapM (fun v => se_prim (PScalar e') v) (map (VInt U8) zs) = Ok (E := ioerr) (map (fun z => ([z], VInt U8 z)) zs)).
    { clear - Hz Hu. induction Hz as [|z l H _ IH]; [reflexivity|]. cbn [map mapM]. unfold se_prim at 1. rewrite (byte_enc e' z Hu H). cbn [bind]. rewrite IH. reflexivity. }
    change (mapM (se_type en (TScalar e')) (map (VInt U8) zs)) with (mapM (fun v => se_prim (PScalar e') v) (map (VInt U8) zs)). rewrite E. cbn [bind arr_of]. rewrite (bytes_enc u8be ts eq_refl Ht). cbn [bind].
    assert (M1 : map fst (map (fun z => ([z], VInt U8 z)) zs) = map (fun z => [z]) zs) by (rewrite map_map; reflexivity).
    assert (M2 : map snd (map (fun z => ([z], VInt U8 z)) zs) = map (VInt U8) zs) by (rewrite map_map; reflexivity).
    rewrite M1, M2, !singles. unfold refuse. rewrite no_term_bytes by exact Hn. eexists. split; [reflexivity|]. apply bytes_app; assumption.
  Qed.

  Lemma type_valid fs en t : sub fs en -> forall v, has_ty w p rf g rec inp fs t v -> exists b, se_type en t v = Ok (b, v) /\ bytes_ok b.
  Proof.
    intros Hs. induction t using ty_ind'; intros v Hv; try contradiction.
    - destruct (has_ty_prim fs (TScalar e) _ v Hv eq_refl) as (b & Hb). cbn [Spec.se_type]. unfold se_prim. rewrite Hb. cbn. eauto using prim_enc_bytes.
    - destruct (has_ty_prim fs TF32 _ v Hv eq_refl) as (b & Hb). cbn [Spec.se_type]. unfold se_prim. rewrite Hb. cbn. eauto using prim_enc_bytes.
    - destruct (has_ty_prim fs TF64 _ v Hv eq_refl) as (b & Hb). cbn [Spec.se_type]. unfold se_prim. rewrite Hb. cbn. eauto using prim_enc_bytes.
    - destruct (has_ty_prim fs TBool _ v Hv eq_refl) as (b & Hb). cbn [Spec.se_type]. unfold se_prim. rewrite Hb. cbn. eauto using prim_enc_bytes.
    - destruct (has_ty_repr _ _ _ Hv) as (b & Hb & Hc). cbn [Spec.se_type]. unfold se_repr. rewrite Hb, Hc. cbn. eauto using repr_enc_bytes.
    - destruct (has_ty_bits _ _ _ Hv) as (b & Hb & Hc). cbn [Spec.se_type]. unfold se_repr. rewrite Hb, Hc. cbn. eauto using repr_enc_bytes.
    - cbn [has_ty] in Hv. destruct Hv as (vs & Hvs & Hv). cbn [Spec.se_type].
      assert (E : mapM (ev en) args = Ok vs).
      { clear Hv. revert vs Hvs. induction args as [|e args IH]; cbn [mapM]; intros vs H; [assumption|]. bi H y Ey. bi H ys Eys. apply Ok_inj in H. subst vs. rewrite (ev_sub _ _ _ _ Hs Ey), (IH _ Eys). reflexivity. }
      rewrite E. cbn [bind]. unfold foreign_of in Hv. destruct (p n) as [[? t ?]|]; [|apply Hrec; assumption].
      destruct t; try (apply Hrec; assumption). destruct Hv as (b & Hb & Hby & Hg). unfold se_foreign. rewrite Hb. cbn [bind]. rewrite Hg. cbn. eauto.
    - destruct l as [e| |e]; [| |apply term_valid with fs; assumption].
      2: { apply rest_valid with fs; assumption. }
      cbn [has_ty] in Hv. destruct Hv as (s & l & -> & He & Hl & Hnb & Hk & Hf). cbn [Spec.se_type se_arr].
      rewrite (ev_sub _ _ _ _ Hs He). cbn [bind]. rewrite Hk.
      assert (Hpos : (0 < elem_bytes t)%nat) by (unfold elem_bytes; destruct (kind_of t); [apply prim_size_pos|apply size_pos|lia]).
      assert (Q : Z.of_nat (List.length l) mod 2 ^ 64 =? Z.of_nat (List.length l) = true) by (apply Z.eqb_eq, Z.mod_small; nia).
      apply Z.ltb_lt in Hl. change (fits (elem_bytes t) l = true) in Hl. unfold elem_bytes in Hl.
      destruct (kind_of t) as [pr|d|] eqn:K.
      + destruct (mapM_all (prim_enc pr) _ l Hf (fun x Hx => has_ty_prim _ _ _ _ Hx K)) as (bs & Hbs).
        destruct pr; [destruct t; try discriminate K; congruence| | |]; cbn [arr_of vint of_some bind]; rewrite Q, Hbs; cbn [bind refuse]; rewrite Z.eqb_refl; cbn [prim_size] in Hl |- *; rewrite Hl; cbn [andb]; (eexists; split; [reflexivity|apply bytes_cat; eapply mapM_result; [|exact Hbs]; intros ? ?; apply prim_enc_bytes]).
      + assert (Y : forall x, has_ty w p rf g rec inp fs t x -> exists b, repr_enc d x = Ok b /\ repr_canon d x = true).
        { intros x Hx. destruct t; try discriminate K; injection K as <-; [apply (has_ty_repr _ _ _ Hx)|apply (has_ty_bits _ _ _ Hx)]. }
        destruct (mapM_all (repr_enc d) _ l Hf (fun x Hx => let '(ex_intro _ b (conj H _)) := Y x Hx in ex_intro _ b H)) as (bs & Hbs).
        assert (C : forallb (repr_canon d) l = true). { apply forallb_forall. intros x Hx. rewrite Forall_forall in Hf. destruct (Y x (Hf _ Hx)) as (? & ? & ?). assumption. }
        cbn [arr_of vint of_some bind]. rewrite Q, Hbs. cbn [bind refuse]. rewrite Z.eqb_refl, Hl, C. cbn [andb]. eexists. split; [reflexivity|]. apply bytes_cat. eapply mapM_result; [|exact Hbs]. intros ? ?. apply repr_enc_bytes.
      + cbn [vint of_some bind]. rewrite Nat2Z.id.
        assert (A : (if (List.length l =? 0)%nat then Ok (E := ioerr) l else arr_of (VArr l)) = Ok l) by (destruct (_ =? _)%nat; reflexivity). rewrite A. cbn [bind].
        assert (T : exists bs, se_times (Spec.se_type w p rf inp (Some g) erec en t) (List.length l) l = Ok (combine bs l) /\ List.length bs = List.length l /\ Forall bytes_ok bs).
        { clear - Hf IHt. induction Hf as [|x l Hx _ IH]; [exists []; repeat split; constructor|]. destruct IH as (bs & E & L & B). destruct (IHt _ Hx) as (b & Eb & Bb).
          cbn [List.length se_times]. rewrite Eb. cbn [bind]. rewrite E. cbn [bind]. exists (b :: bs). cbn. auto. }
        destruct T as (bs & T & L & B). rewrite T. cbn [bind refuse]. rewrite Z.eqb_refl, Hl. cbn [andb].
        assert (M : map snd (combine bs l) = l). { clear - L. revert bs L. induction l as [|x l IH]; intros [|b bs] L; try discriminate; [reflexivity|]. cbn. f_equal. apply IH. now injection L. }
        assert (M1 : map fst (combine bs l) = bs). { clear - L. revert bs L. induction l as [|x l IH]; intros [|b bs] L; try discriminate; [reflexivity|]. cbn. f_equal. apply IH. now injection L. }
        rewrite M, M1. eexists. split; [reflexivity|]. apply bytes_cat. exact B.
  Qed.

  Definition pick (fs : env) (ns : list string) : env := flat_map (fun n => match lookup n fs with Some v => [(n, v)] | None => [] end) ns.

  Fixpoint plain_list (st : list string) (l : list (fattr * ty)) : bool :=
    match l with
    | [] => true
    | (a, t') :: l =>
        negb (fa_pad a && is_some (fa_cond a))
        && match fa_calc a with
           | None => true
           | Some e => negb (is_some (fa_cond a)) && negb (is_cont t') && negb (fa_pad a) && subset (fv e) st
                       && match blen_calls e with Some [] => true | _ => false end
           end
        && (negb (is_cont t') || (negb (is_some (fa_cond a)) && negb (fa_pad a) && plain_cont st t'))
        && plain_list st l
    end.
  Lemma plain_cont_eq st len tg items : plain_cont st (TCont len tg items) = negb tg && plain_list st items.
  Proof. cbn [plain_cont]. f_equal. induction items as [|[a t] l IH]; cbn [plain_list]; [reflexivity|]. rewrite <- IH. reflexivity. Qed.

  Fixpoint nested_list (fs : env) (l : list (fattr * ty)) : Prop :=
    match l with [] => True | (a, t') :: l => (is_cont t' = true -> ValidSpec.xs_ok w g inp fs (fa_xs a) /\ fits_length w p rf inp fs t') /\ nested_ok w p rf g inp fs t' /\ nested_list fs l end.
  Lemma nested_eq fs len tg items : nested_ok w p rf g inp fs (TCont len tg items) = nested_list fs items.
  Proof. cbn [nested_ok]. induction items as [|[a t] l IH]; cbn [nested_list]; [reflexivity|]. rewrite <- IH. reflexivity. Qed.

  (** Contents of the declared length. *)
  Lemma limit_valid fs en len items a v (k : res ioerr (list Z * vals)) b vs : sub fs en -> fits_length w p rf inp fs (TCont len false items) ->
    k = Ok (b, vs) -> fa_pad a = false -> se_complex w p rf inp (Some g) erec a (TCont len false items) en v false true = k ->
    se_limit w inp (Some g) en len false k = Ok (b, vs).
  Proof.
    intros Hs Hf Hk Hp Hc. destruct len as [e|]; [|exact Hk]. destruct Hf as (s & z & bf & j & He & Hz & Hbf & Hsize). cbn [se_limit]. rewrite (ev_sub _ _ _ _ Hs He). cbn [bind].
    assert (L : len_of (VInt s z) = Ok (Z.to_nat z)) by (rewrite <- (Z2Nat.id z) at 1 by lia; apply len_of_nat; lia). rewrite L. cbn [bind]. rewrite Hk. cbn [bind].
    pose proof (SizeFacts.complex_gives w p rf bf (Sizes.bounds p rf bf j) Hbf inp (Some g) erec (Hsz bf j Hbf) (TCont (Some e) false items) a en v false true b vs) as G. cbn [fst snd] in G. rewrite Hc, Hp in G. specialize (G Hk).
    rewrite Hsize in G. apply SizeFacts.within_exact_iff in G. cbn [limit_of]. rewrite Z.mod_small by lia. rewrite <- G, Nat2Z.id, Nat.eqb_refl. reflexivity.
  Qed.

  Lemma struct_limit len items v b vs : fits_length w p rf inp [] (TCont len false items) -> se_struct w p rf inp (Some g) erec items v = Ok (b, vs) ->
    se_limit w inp (Some g) [] len false (se_struct w p rf inp (Some g) erec items v) = Ok (b, vs).
  Proof.
    intros Hf Hk. destruct len as [e|]; [|exact Hk]. destruct Hf as (s & z & bf & j & He & Hz & Hbf & Hsize). cbn [se_limit]. unfold Spec.ev. unfold val_of in He. change (fun n => lookup n []) with (fun n : string => lookup n (@nil (string * val))) in He. rewrite He. cbn [bind].
    assert (L : len_of (VInt s z) = Ok (Z.to_nat z)) by (rewrite <- (Z2Nat.id z) at 1 by lia; apply len_of_nat; lia). rewrite L. cbn [bind]. rewrite Hk. cbn [bind].
    unfold se_struct in Hk. bi Hk en0 E0. bi Hk en1 E1.
    pose proof (SizeFacts.cont_gives w p rf bf (Sizes.bounds p rf bf j) inp (Some g) erec items en1 false b vs (SizeFacts.all_give w p rf bf (Sizes.bounds p rf bf j) Hbf inp (Some g) erec (Hsz bf j Hbf) items) Hk) as G.
    rewrite <- (SizeFacts.size_cont p rf bf (Sizes.bounds p rf bf j) (Some e)), Hsize in G. apply SizeFacts.within_exact_iff in G. cbn [limit_of]. rewrite Z.mod_small by lia. rewrite <- G, Nat2Z.id, Nat.eqb_refl. reflexivity.
  Qed.

  Notation se_field := (se_field w inp (Some g)).
  Notation se_items := (se_items w inp (Some g)).
  Notation se_item := (se_item w p rf inp (Some g) erec).
  Notation has_field := (has_field w p rf g rec inp).

  Section Fields.
    Variable fs en : env.
    Hypothesis Hs : sub fs en.
    Variable st : list string.

    Lemma takes_valid xs : ValidSpec.xs_ok w g inp fs xs -> forall {A} (k : res ioerr (list Z * A)) b a, k = Ok (b, a) -> bytes_ok b -> exists b', Spec.se_xs w inp (Some g) en xs k = Ok (b', a) /\ bytes_ok b'.
    Proof.
      induction 1 as [|x xs Hx _ IH]; intros A k b a Hk Hb; [eauto|]. cbn [Spec.se_xs]. destruct (IH A k b a Hk Hb) as (b1 & E1 & B1).
      assert (T : takes w g inp fs x -> exists b', (let! vs := mapM (ev en) (x_args x) in let! (b, a) := Spec.se_xs w inp (Some g) en xs k in let! b' := w_xenc w (x_name x) vs b in refuse (Some g) (g_x g (x_name x) vs b) (Ok (b', a))) = Ok (b', a) /\ bytes_ok b').
      { intros (vs & Hvs & HT). assert (E : mapM (ev en) (x_args x) = Ok vs).
        { revert vs Hvs HT. induction (x_args x) as [|e args IHa]; cbn [mapM]; intros vs H HT; [assumption|]. clear HT. revert vs H. enough (Q : forall l vs, mapM (val_of w inp fs) l = Ok vs -> mapM (ev en) l = Ok vs) by (intros vs H; exact (Q (e :: args) vs H)).
          intros l. induction l as [|e0 l IHl]; cbn [mapM]; intros vs H; [assumption|]. bi H y Ey. bi H ys Eys. apply Ok_inj in H. subst vs. rewrite (ev_sub _ _ _ _ Hs Ey), (IHl _ Eys). reflexivity. }
        destruct (HT b1 B1) as (b2 & E2 & B2 & G). rewrite E. cbn [bind]. rewrite E1. cbn [bind]. rewrite E2. cbn [bind]. rewrite G. cbn [refuse]. eauto. }
      destruct (x_cond x) as [e|]; [|cbn [bind]; apply T; exact Hx]. destruct Hx as (c & Hc & Hx). rewrite (ev_sub _ _ _ _ Hs Hc). cbn [bind bool_of]. destruct c; [apply T; auto|]. eauto.
    Qed.

    Definition cvalid (t : ty) : Prop := plain_cont st t = true -> is_cont t = true -> (forall a t', In (a, t') (flatten_ty t) -> has_field fs a t') -> nested_ok w p rf g inp fs t -> fits_length w p rf inp fs t ->
      forall a v pd, fa_pad a = false -> exists b, se_complex w p rf inp (Some g) erec a t en v false pd = Ok (b, pick fs (leaf_names (flatten_ty t))) /\ bytes_ok b.

    Lemma leaf_valid a t v : is_cont t = false -> fa_pad a && is_some (fa_cond a) = false -> (is_some (fa_calc a) && is_some (fa_cond a) = false) -> has_field fs a t ->
      (if fa_pad a then True else lookup (fa_name a) fs = Some v) ->
      exists b n, se_field (se_item (a, t)) en v false false = Ok (b, (pick fs (leaf_names [(a, t)]), n)) /\ bytes_ok b.
    Proof.
      intros Hc Hp Hcc H Hv. unfold has_field in H. unfold se_field, Spec.se_field, Spec.se_item. cbn [fst snd].
      destruct (fa_pad a) eqn:Ep.
      - destruct H as (el & e & s & z & -> & He & Hz & Hx). destruct (fa_cond a); [discriminate Hp|]. cbn [Spec.se_complex bind]. rewrite Ep. rewrite (ev_sub _ _ _ _ Hs He). cbn [bind].
        assert (L : len_of (VInt s z) = Ok (Z.to_nat z)) by (rewrite <- (Z2Nat.id z) at 1 by lia; apply len_of_nat; lia). rewrite L. cbn [bind].
        assert (PK : pick fs (leaf_names [(a, TArr el (LFixed e))]) = []) by (unfold leaf_names; cbn [filter]; unfold leaf; cbn [fst]; rewrite Ep; reflexivity). rewrite PK.
        destruct (takes_valid _ Hx _ (repeat 0 (Z.to_nat z)) (@nil (string * val), List.length (repeat 0 (Z.to_nat z))) eq_refl) as (b & Eb & Bb); [apply Forall_forall; intros x Hi; apply repeat_spec in Hi; subst x; unfold byte_ok; lia|].
        exists b, (List.length (repeat 0 (Z.to_nat z))). split; [exact Eb|exact Bb].
      - destruct H as (v0 & Hl & H). assert (v0 = v) by congruence. subst v0.
        assert (PK : forall v, lookup (fa_name a) fs = Some v -> pick fs (leaf_names [(a, t)]) = [(fa_name a, v)]).
        { intros v1 H1. unfold leaf_names. cbn [filter]. unfold leaf. cbn [fst snd]. rewrite Ep, Hc. cbn [orb negb map fst pick flat_map]. rewrite H1. reflexivity. }
        assert (K : forall x, has_ty w p rf g rec inp fs t x -> exists b, se_complex w p rf inp (Some g) erec a t en x false false = Ok (b, [(fa_name a, x)])
                       /\ se_complex w p rf inp (Some g) erec a t en x true false = Ok (b, [(fa_name a, x)]) /\ bytes_ok b).
        { intros x Hxt. destruct (type_valid fs en t Hs x Hxt) as (b & Eb & Bb). exists b. rewrite <- and_assoc. split; [|exact Bb]. destruct t; try discriminate Hc; cbn [Spec.se_complex]; rewrite Ep, Eb; split; reflexivity. }
        destruct (fa_cond a) as [e|].
        + destruct H as (c & He & Hc'). rewrite (ev_sub _ _ _ _ Hs He). cbn [bind bool_of]. destruct c.
          * destruct Hc' as (Hx & x & -> & Hxt). destruct (K x Hxt) as (b & _ & Eb & Bb). rewrite Hc. destruct (fa_calc a); [discriminate Hcc|]. cbn [negb andb is_some unwrap_opt bind].
            destruct (takes_valid _ Hx _ b ([(fa_name a, x)], List.length b) eq_refl Bb) as (b' & Eb' & Bb'). rewrite Eb. cbn [bind]. exists b', (List.length b). split; [|exact Bb']. rewrite (PK _ Hl). unfold vals in *. rewrite Eb'. reflexivity.
          * subst v. exists [], 0%nat. unfold flatten_field. cbn [snd]. rewrite Hc. rewrite (PK _ Hl). unfold leaf_names. cbn [filter]. unfold leaf. cbn [fst snd]. rewrite Ep, Hc. split; [reflexivity|constructor].
        + destruct H as (Hxt & Hx & _). destruct (K v Hxt) as (b & Eb & _ & Bb). cbn [bind]. rewrite Eb. cbn [bind].
          destruct (takes_valid _ Hx _ b ([(fa_name a, v)], List.length b) eq_refl Bb) as (b' & Eb' & Bb'). exists b', (List.length b). split; [|exact Bb']. rewrite (PK _ Hl). exact Eb'.
    Qed.

    Lemma items_valid items : Forall (fun f => cvalid (snd f)) items -> plain_list st items = true ->
      (forall a t', In (a, t') (flatten_items items) -> has_field fs a t') -> nested_list fs items ->
      forall out vs0, exists b, se_items (map se_item items) en false out vs0 None = Ok (out ++ b, vs0 ++ pick fs (leaf_names (flatten_items items))) /\ bytes_ok b.
    Proof.
      induction items as [|[a t] items IH]; intros HF Hp Hh HN out vs0.
      { exists []. cbn. rewrite !app_nil_r. split; [reflexivity|constructor]. }
      inversion HF as [|? ? HFt HF']; subst. cbn [plain_list] in Hp. rewrite !andb_true_iff in Hp. destruct Hp as (((P2 & P3) & P4) & P5). apply negb_true_iff in P2. destruct HN as (HN1 & HN2 & HN3).
      assert (LN : leaf_names (flatten_items ((a, t) :: items)) = leaf_names (flatten_field (a, t)) ++ leaf_names (flatten_items items)).
      { unfold leaf_names, flatten_items. cbn [flat_map]. rewrite filter_app, map_app. reflexivity. }
      assert (PK : pick fs (leaf_names (flatten_items ((a, t) :: items))) = pick fs (leaf_names (flatten_field (a, t))) ++ pick fs (leaf_names (flatten_items items))).
      { rewrite LN. unfold pick. apply flat_map_app. }
      assert (Hh' : forall a0 t', In (a0, t') (flatten_items items) -> has_field fs a0 t').
      { intros a0 t' Hi. apply Hh. unfold flatten_items. cbn [flat_map]. apply in_app_iff. auto. }
      assert (F : exists b n v, (if is_cont t || fa_pad a then Ok (VBool false) else of_some (lookup (fa_name a) en)) = Ok v /\
                    se_field (se_item (a, t)) en v false false = Ok (b, (pick fs (leaf_names (flatten_field (a, t))), n)) /\ bytes_ok b).
      { destruct (is_cont t) eqn:Hc.
        - cbn [negb orb] in P4. apply andb_true_iff in P4 as (P4 & P6). apply andb_true_iff in P4 as (P4 & P7). apply negb_true_iff in P4, P7. destruct (HN1 eq_refl) as (Hx & Hfit).
          assert (Fc : fa_cond a = None) by (destruct (fa_cond a); [discriminate P4|reflexivity]).
          unfold flatten_field. cbn [snd]. rewrite Hc.
          destruct (HFt P6 Hc) with (a := a) (v := VBool false) (pd := false) as (b & Eb & Bb); [|exact HN2|exact Hfit|exact P7|].
          { intros a0 t' Hi. apply Hh. unfold flatten_items. cbn [flat_map]. apply in_app_iff. left. unfold flatten_field. cbn [snd]. rewrite Hc. exact Hi. }
          cbn [snd] in Eb. destruct (takes_valid _ Hx _ b (pick fs (leaf_names (flatten_ty t)), List.length b) eq_refl Bb) as (b' & Eb' & Bb').
          exists b', (List.length b), (VBool false). split; [reflexivity|]. unfold se_field, Spec.se_field, Spec.se_item. cbn [fst snd]. rewrite Fc. cbn [bind]. rewrite Eb. cbn [bind]. split; [exact Eb'|exact Bb'].
        - assert (Hf : has_field fs a t).
          { apply Hh. unfold flatten_items. cbn [flat_map]. apply in_app_iff. left. unfold flatten_field. cbn [snd]. rewrite Hc. left. reflexivity. }
          assert (Hcc : is_some (fa_calc a) && is_some (fa_cond a) = false).
          { destruct (fa_calc a); [|reflexivity]. rewrite !andb_true_iff in P3. destruct P3 as ((((P3 & _) & _) & _) & _). apply negb_true_iff in P3. rewrite P3. reflexivity. }
          unfold flatten_field. cbn [snd]. rewrite Hc. cbn [orb].
          destruct (fa_pad a) eqn:Ep.
          + destruct (leaf_valid a t (VBool false)) as (b & n & Eb & Bb); auto; [rewrite Ep; exact P2|rewrite Ep; exact I|]. eauto 8.
          + pose proof Hf as Hf2. unfold has_field, ValidSpec.has_field in Hf2. rewrite Ep in Hf2. destruct Hf2 as (v & Hl & _).
            destruct (leaf_valid a t v) as (b & n & Eb & Bb); auto; [rewrite Ep; exact P2|rewrite Ep; exact Hl|]. exists b, n, v. rewrite (Hs _ _ Hl). auto. }
      destruct F as (b & n & v & E1 & E2 & B2).
      destruct (IH HF' P5 Hh' HN3 (out ++ b) (vs0 ++ pick fs (leaf_names (flatten_field (a, t))))) as (b' & E3 & B3).
      exists (b ++ b'). split; [|apply bytes_app; assumption]. rewrite PK, !app_assoc. cbn [map]. unfold Spec.se_item at 1. cbn [Spec.se_items fst snd].
      change (a, t, se_complex w p rf inp (Some g) erec a t) with (se_item (a, t)). rewrite E1. cbn [bind]. rewrite E2. cbn [bind].
      destruct (fa_calc a) as [e|]; [|exact E3]. rewrite !andb_true_iff in P3. destruct P3 as (_ & P3). destruct (blen_calls e) as [[|? ?]|]; try discriminate P3. exact E3.
    Qed.

    Lemma complex_valid t : cvalid t.
    Proof.
      induction t using ty_ind'; intros Hp Hc Hh HN Hfit a v pd Hpad; try discriminate Hc. rewrite plain_cont_eq in Hp. apply andb_true_iff in Hp as (P2 & P3).
      destruct tagged; [discriminate P2|]. rewrite flatten_ty_cont in *. rewrite nested_eq in HN.
      destruct (items_valid items H P3 Hh HN [] []) as (b & E & Bb). cbn [app] in E. exists b. split; [|exact Bb].
      assert (C : se_complex w p rf inp (Some g) erec a (TCont len false items) en v false true = se_items (map se_item items) en false [] [] None).
      { cbn [Spec.se_complex]. rewrite Hpad. destruct len; reflexivity. }
      cbn [Spec.se_complex]. rewrite Hpad. cbn [bind]. change (map (fun f => (fst f, snd f, se_complex w p rf inp (Some g) erec (fst f) (snd f))) items) with (map se_item items).
      destruct pd; [destruct len; exact E|]. exact (limit_valid fs en len items a v _ b _ Hs Hfit E Hpad C).
    Qed.
  End Fields.

  Lemma pick_all fs ns : NoDup ns -> map fst fs = ns -> pick fs ns = fs.
  Proof.
    intros ND <-. unfold pick. assert (X : forall l, incl l fs -> flat_map (fun n => match lookup n fs with Some v => [(n, v)] | None => [] end) (map fst l) = l).
    { induction l as [|[n v] l IH]; intros Hi; [reflexivity|]. cbn [map flat_map fst]. assert (E : lookup n fs = Some v) by (apply lookup_in; [exact ND|apply Hi; left; reflexivity]).
      rewrite E. cbn [app]. f_equal. apply IH. intros y Hy. apply Hi. right. assumption. }
    apply X. apply incl_refl.
  Qed.

  Lemma refs_valid fs l : (forall f, In f l -> is_some (fa_calc (fst f)) || fa_pad (fst f) = false -> exists v, lookup (fa_name (fst f)) fs = Some v) ->
    forall en0, (forall n x, lookup n en0 = Some x -> lookup n fs = Some x) -> exists en, se_refs l fs en0 = Ok en /\ (forall n x, lookup n en = Some x -> lookup n fs = Some x) /\
      (forall n x, lookup n fs = Some x -> (exists f, In f l /\ fa_name (fst f) = n /\ is_some (fa_calc (fst f)) || fa_pad (fst f) = false) \/ lookup n en0 = Some x -> lookup n en = Some x).
  Proof.
    induction l as [|[a t] l IH]; intros H en0 H0; cbn [se_refs]; [exists en0; split; [reflexivity|]; split; [assumption|]; intros n x _ [(f & [] & _)|]; assumption|].
    destruct (is_some (fa_calc a) || fa_pad a) eqn:E.
    - destruct (IH (fun f Hf => H f (or_intror Hf)) en0 H0) as (en & E1 & E2 & E3). exists en. split; [exact E1|]. split; [exact E2|]. intros n x Hx Hd. apply E3; [assumption|].
      destruct Hd as [(f & [<-|Hi] & Hn & Hc)|]; [cbn [fst] in Hc; congruence| |auto]. left. eauto.
    - destruct (H (a, t) (or_introl eq_refl) E) as (v & Hv). cbn [fst] in Hv. rewrite Hv. cbn [of_some bind].
      destruct (IH (fun f Hf => H f (or_intror Hf)) ((fa_name a, v) :: en0)) as (en & E1 & E2 & E3).
      { intros n x Hx. rewrite lookup_cons in Hx. destruct (String.eqb_spec (fa_name a) n) as [<-|]; [congruence|auto]. }
      exists en. split; [exact E1|]. split; [exact E2|]. intros n x Hx Hd. apply E3; [assumption|]. rewrite lookup_cons.
      destruct (String.eqb_spec (fa_name a) n) as [<-|Hne]; [right; congruence|]. destruct Hd as [(f & [<-|Hi] & Hn & Hc)|]; [cbn [fst] in Hn; congruence|left; eauto|auto].
  Qed.

  Lemma calcs_valid fs st l : (forall n x, In n st -> lookup n fs = Some x -> True) ->
    (forall f e, In f l -> fa_calc (fst f) = Some e -> incl (fv e) st /\ blen_calls e = Some [] /\ exists v, lookup (fa_name (fst f)) fs = Some v /\ val_of w inp fs e = Ok v) ->
    forall en0, (forall n x, lookup n en0 = Some x -> lookup n fs = Some x) -> (forall n x, In n st -> lookup n fs = Some x -> lookup n en0 = Some x) ->
    exists en, se_calcs w inp l en0 = Ok en /\ (forall n x, lookup n en = Some x -> lookup n fs = Some x) /\
      (forall n x, lookup n fs = Some x -> (exists f, In f l /\ fa_name (fst f) = n /\ is_some (fa_calc (fst f)) = true) \/ lookup n en0 = Some x -> lookup n en = Some x).
  Proof.
    intros _. induction l as [|[a t] l IH]; intros H en0 H0 H1; cbn [se_calcs]; [exists en0; split; [reflexivity|]; split; [assumption|]; intros n x _ [(f & [] & _)|]; assumption|].
    destruct (fa_calc a) as [e|] eqn:Ea.
    - destruct (H (a, t) e (or_introl eq_refl) Ea) as (A1 & A2 & v & A3 & A4). cbn [fst] in A3. rewrite A2.
      assert (E : ev en0 e = Ok v).
      { revert A4. unfold val_of, Spec.ev, eval. apply reval_mono. intros n x Hn Hx. apply H1; [apply A1; eapply rfv_emit; eassumption|assumption]. }
      rewrite E. cbn [bind].
      destruct (IH (fun f e Hf => H f e (or_intror Hf)) ((fa_name a, v) :: en0)) as (en & E1 & E2 & E3).
      { intros n x Hx. rewrite lookup_cons in Hx. destruct (String.eqb_spec (fa_name a) n) as [<-|]; [congruence|auto]. }
      { intros n x Hn Hx. rewrite lookup_cons. destruct (String.eqb_spec (fa_name a) n) as [<-|]; [congruence|auto]. }
      exists en. split; [exact E1|]. split; [exact E2|]. intros n x Hx Hd. apply E3; [assumption|]. rewrite lookup_cons.
      destruct (String.eqb_spec (fa_name a) n) as [<-|Hne]; [right; congruence|]. destruct Hd as [(f & [<-|Hi] & Hn & Hc)|]; [cbn [fst] in Hn; congruence|left; eauto|auto].
    - destruct (IH (fun f e Hf => H f e (or_intror Hf)) en0 H0 H1) as (en & E1 & E2 & E3). exists en. split; [exact E1|]. split; [exact E2|]. intros n x Hx Hd. apply E3; [assumption|].
      destruct Hd as [(f & [<-|Hi] & Hn & Hc)|]; [cbn [fst] in Hc; rewrite Ea in Hc; discriminate| |auto]. left. eauto.
  Qed.

  Lemma plain_calc st t : forall f e, plain_cont st t = true -> In f (flatten_ty t) -> fa_calc (fst f) = Some e ->
    incl (fv e) st /\ blen_calls e = Some [] /\ fa_pad (fst f) = false /\ fa_cond (fst f) = None.
  Proof.
    induction t using ty_ind'; intros f e0 Hp Hi He; try contradiction. rewrite plain_cont_eq in Hp. rewrite !andb_true_iff in Hp. destruct Hp as (_ & Hp). rewrite flatten_ty_cont in Hi.
    induction items as [|[a t] items IH]; [contradiction|]. inversion H as [|? ? H1 H2]; subst. cbn [plain_list] in Hp. rewrite !andb_true_iff in Hp. destruct Hp as (((P2 & P3) & P4) & P5).
    unfold flatten_items in Hi. cbn [flat_map] in Hi. apply in_app_iff in Hi as [Hi|Hi]; [|apply IH; assumption]. unfold flatten_field in Hi. cbn [snd] in Hi. destruct (is_cont t) eqn:Ec.
    - cbn [negb orb] in P4. apply andb_true_iff in P4 as (_ & P4). eapply H1; eauto.
    - destruct Hi as [<-|[]]. cbn [fst] in *. rewrite He in P3. rewrite !andb_true_iff in P3. destruct P3 as ((((P3 & _) & P6) & P7) & P8). apply subset_incl in P7. apply negb_true_iff in P6, P3.
      split; [assumption|]. split; [destruct (blen_calls e0) as [[|? ?]|]; try discriminate P8; reflexivity|]. split; [assumption|]. destruct (fa_cond a); [discriminate P3|reflexivity].
  Qed.

  Lemma struct_valid items fs nm : plain_cont (noncalc (flatten_items items)) (TCont None false items) = true -> NoDup (leaf_names (flatten_items items)) ->
    map fst fs = leaf_names (flatten_items items) -> nested_ok w p rf g inp fs (TCont None false items) -> (forall a t, In (a, t) (flatten_items items) -> has_field fs a t) ->
    exists b, se_struct w p rf inp (Some g) erec items (VStruct nm fs) = Ok (b, fs) /\ bytes_ok b.
  Proof.
    intros Hp ND Hn HN Hh. unfold se_struct. rewrite nested_eq in HN.
    assert (L : forall f, In f (flatten_items items) -> fa_pad (fst f) = false -> exists v, lookup (fa_name (fst f)) fs = Some v).
    { intros [a t] Hi Hpd. apply Hh in Hi. unfold has_field, ValidSpec.has_field in Hi. cbn [fst] in *. rewrite Hpd in Hi. destruct Hi as (v & Hv & _). eauto. }
    destruct (refs_valid fs (flatten_items items)) with (en0 := @nil (string * val)) as (en0 & E1 & E2 & E3).
    { intros f Hi Hf. apply L; [assumption|]. apply orb_false_iff in Hf as (_ & Hf). assumption. }
    { intros n x Hx. rewrite lookup_nil in Hx. discriminate. }
    match goal with |- exists b, bind ?X _ = _ /\ _ => assert (R : exists en0', X = Ok en0' /\ (forall n x, lookup n en0' = Some x -> lookup n fs = Some x) /\ (forall n x, In n (noncalc (flatten_items items)) -> lookup n fs = Some x -> lookup n en0' = Some x)) end.
    { destruct (existsb _ (flatten_items items)) eqn:Ex.
      - exists en0. cbn [fields_of bind]. split; [exact E1|]. split; [exact E2|]. intros n x Hi Hx. apply E3; [assumption|]. left. unfold noncalc in Hi.
        apply in_map_iff in Hi as (f & A1 & A2). apply filter_In in A2 as (A2 & A3). apply andb_true_iff in A3 as (A3 & A4). exists f. split; [assumption|]. split; [assumption|].
        apply negb_true_iff in A3. rewrite A3. unfold leaf in A4. apply negb_true_iff, orb_false_iff in A4 as (A4 & _). assumption.
      - exists []. split; [reflexivity|]. split; [intros n x Hx; rewrite lookup_nil in Hx; discriminate|]. intros n x Hi _. exfalso. unfold noncalc in Hi.
        apply in_map_iff in Hi as (f & A1 & A2). apply filter_In in A2 as (A2 & A3). apply andb_true_iff in A3 as (A3 & A4). unfold leaf in A4. apply negb_true_iff, orb_false_iff in A4 as (A4 & _).
        assert (existsb (fun f => negb (is_some (fa_calc (fst f))) && negb (fa_pad (fst f))) (flatten_items items) = true); [|congruence].
        apply existsb_exists. exists f. rewrite A3, A4. auto. }
    destruct R as (en1 & R1 & R2 & R3). rewrite R1. cbn [bind].
    destruct (calcs_valid fs (noncalc (flatten_items items)) (flatten_items items)) with (en0 := en1) as (en & C1 & C2 & C3); auto.
    { intros f e Hi He. destruct (plain_calc _ _ f e Hp) as (P1 & P2 & P3 & P4); [rewrite flatten_ty_cont; assumption|assumption|]. split; [assumption|]. split; [assumption|].
      destruct f as [a t]. apply Hh in Hi. unfold has_field, ValidSpec.has_field in Hi. cbn [fst] in *. rewrite P3, P4, He in Hi. destruct Hi as (v & Hv & _ & _ & Hc). eauto. }
    rewrite C1. cbn [bind].
    assert (Hs : sub fs en).
    { intros n x Hx. assert (Hi : In n (leaf_names (flatten_items items))). { rewrite <- Hn. apply lookup_some_in in Hx. apply in_map_iff. exists (n, x). auto. }
      unfold leaf_names in Hi. apply in_map_iff in Hi as (f & A1 & A2). apply filter_In in A2 as (A2 & A3). apply C3; [assumption|].
      destruct (fa_calc (fst f)) eqn:Ef; [left; exists f; rewrite Ef; auto|right]. apply R3; [|assumption]. unfold noncalc. apply in_map_iff. exists f. split; [assumption|]. apply filter_In. split; [assumption|]. rewrite Ef. exact A3. }
    rewrite plain_cont_eq in Hp. cbn [negb andb] in Hp.
    destruct (items_valid fs en Hs (noncalc (flatten_items items)) items) with (out := @nil Z) (vs0 := @nil (string * val)) as (b & E & Bb); try eassumption.
    { apply Forall_forall. intros f _. apply complex_valid. assumption. }
    exists b. rewrite E. cbn [app]. rewrite (pick_all fs _ ND Hn). split; [reflexivity|exact Bb].
  Qed.

  (** A struct of a tagged enum: all leaves are in scope from the start. *)
  Lemma sub_valid items fs : plain_cont (noncalc (flatten_items items)) (TCont None false items) = true -> NoDup (leaf_names (flatten_items items)) ->
    map fst fs = leaf_names (flatten_items items) -> nested_ok w p rf g inp fs (TCont None false items) -> (forall a t, In (a, t) (flatten_items items) -> has_field fs a t) ->
    exists b, (let! en := (let! l := mapM (fun n => let! x := of_some (lookup n fs) in Ok (E := ioerr) (n, x)) (leaf_names (flatten_items items)) in Ok (rev l)) in
               let! en := se_calcs w inp (flatten_items items) en in se_items (map se_item items) en false [] [] None) = Ok (b, fs) /\ bytes_ok b.
  Proof.
    intros Hp ND Hn HN Hh. rewrite nested_eq in HN.
    assert (M : mapM (fun n => let! x := of_some (lookup n fs) in Ok (E := ioerr) (n, x)) (leaf_names (flatten_items items)) = Ok fs).
    { rewrite <- Hn in *. assert (X : forall l, incl l fs -> mapM (fun n => let! x := of_some (lookup n fs) in Ok (E := ioerr) (n, x)) (map fst l) = Ok l).
      { induction l as [|[n v] l IH]; intros Hi; [reflexivity|]. cbn [map mapM fst]. assert (E : lookup n fs = Some v) by (apply lookup_in; [exact ND|apply Hi; left; reflexivity]).
        rewrite E. cbn [of_some bind]. rewrite IH; [reflexivity|]. intros y Hy. apply Hi. right. assumption. }
      apply X, incl_refl. }
    rewrite M. cbn [bind]. rewrite <- Hn in ND.
    assert (R : forall n x, lookup n (rev fs) = Some x <-> lookup n fs = Some x).
    { assert (ND' : NoDup (map fst (rev fs))) by (rewrite map_rev; apply NoDup_rev; exact ND). intros n x. split; intros H.
      - apply lookup_in; [exact ND|]. apply in_rev. apply lookup_some_in in H. exact H.
      - apply lookup_in; [exact ND'|]. apply in_rev. rewrite rev_involutive. apply lookup_some_in in H. exact H. }
    destruct (calcs_valid fs (noncalc (flatten_items items)) (flatten_items items)) with (en0 := rev fs) as (en & C1 & C2 & C3); auto.
    { intros f e Hi He. destruct (plain_calc _ _ f e Hp) as (P1 & P2 & P3 & P4); [rewrite flatten_ty_cont; assumption|assumption|]. split; [assumption|]. split; [assumption|].
      destruct f as [a t]. apply Hh in Hi. unfold has_field, ValidSpec.has_field in Hi. cbn [fst] in *. rewrite P3, P4, He in Hi. destruct Hi as (v & Hv & _ & _ & Hc). eauto. }
    { intros n x H. apply R. exact H. }
    { intros n x _ H. apply R. exact H. }
    rewrite C1. cbn [bind].
    assert (Hs : sub fs en) by (intros n x Hx; apply C3; [exact Hx|right; apply R; exact Hx]).
    rewrite plain_cont_eq in Hp. cbn [negb andb] in Hp.
    destruct (items_valid fs en Hs (noncalc (flatten_items items)) items) with (out := @nil Z) (vs0 := @nil (string * val)) as (b & E & Bb); try eassumption.
    { apply Forall_forall. intros f _. apply complex_valid. assumption. }
    exists b. rewrite E. cbn [app]. rewrite (pick_all fs (leaf_names (flatten_items items))); [split; [reflexivity|exact Bb]|rewrite <- Hn; exact ND|exact Hn].
  Qed.

  Lemma variant_valid nm items v : has_variant w p rf g rec inp nm items v -> exists b, se_variants w p rf inp (Some g) erec nm items v = Ok (b, v) /\ bytes_ok b.
  Proof.
    intros (pre & a & t & post & -> & Hpre & Hc & H). induction pre as [|[a0 t0] pre IH]; cbn [app se_variants].
    - assert (E : match fa_cond a with Some e => let! v := ev [] e in bool_of v | None => Ok true end = Ok true).
      { destruct (fa_cond a) as [e|]; [|reflexivity]. unfold Spec.ev. unfold val_of in Hc. rewrite Hc. reflexivity. }
      rewrite E. cbn [bind].
      assert (LEAF : is_cont t = false -> fa_pad a = false -> ValidSpec.xs_ok w g inp [] (fa_xs a) -> forall x, has_ty w p rf g rec inp [] t x ->
                exists b, Spec.se_xs w inp (Some g) [] (fa_xs a) (se_complex w p rf inp (Some g) erec a t [] x false false) = Ok (b, [(fa_name a, x)]) /\ bytes_ok b).
      { intros Ht Hp Hx x Hxt. destruct (type_valid [] [] t (fun _ _ H => H) x Hxt) as (b & Eb & Bb).
        assert (K : se_complex w p rf inp (Some g) erec a t [] x false false = Ok (b, [(fa_name a, x)])) by (destruct t; try discriminate Ht; cbn [Spec.se_complex]; rewrite Hp, Eb; reflexivity).
        apply (takes_valid [] [] (fun _ _ H => H) _ Hx _ b); assumption. }
      destruct (is_cont t) eqn:Et.
      + destruct t as [e| | | |de|db|f|m0 args'|el lc|len tg sub0]; try discriminate Et. destruct H as (Hx & -> & fs & -> & Hp & ND & Hn & HN & Hh). pose proof Hp as Hp2. rewrite plain_cont_eq in Hp2. apply andb_true_iff in Hp2 as (P2 & _).
        destruct tg; [discriminate P2|]. destruct (sub_valid sub0 fs Hp ND Hn HN Hh) as (b & Eb & Bb).
        rewrite !String.eqb_refl. exists b. split; [|exact Bb]. bi Eb en Een. rewrite Een. cbn [bind]. bi Eb en1 Een1. rewrite Een1. cbn [bind]. rewrite Eb. cbn [bind]. rewrite Hx. reflexivity.
      + assert (H' : fa_pad a = false /\ ValidSpec.xs_ok w g inp [] (fa_xs a) /\ exists x, v = VVariant nm (fa_name a) x /\ has_ty w p rf g rec inp [] t x) by (destruct t; try discriminate Et; exact H).
        destruct H' as (Hp & Hx & x & -> & Hxt). destruct (LEAF eq_refl Hp Hx x Hxt) as (b & Eb & Bb). rewrite !String.eqb_refl, Eb. cbn [bind]. eauto.
    - destruct (Hpre (a0, t0) (or_introl eq_refl)) as (e & He & Hv). cbn [fst] in He. rewrite He. unfold Spec.ev at 1. unfold val_of in Hv. rewrite Hv. cbn [bind bool_of].
      apply IH. intros f Hf. apply Hpre. right. exact Hf.
  Qed.
End Prog.

Theorem valid_sencode_bytes w p rf g k : forall n args v, has_decl w p rf g k n args v -> exists b, sencode w p rf (Some g) k n args v = Ok (b, v) /\ bytes_ok b.
Proof.
  induction k as [|k IH]; intros n args v H; [contradiction|]. cbn [has_decl] in H. destruct H as (d & inp & Hd & Hb & Hx & H). cbn [sencode]. rewrite Hd. cbn [of_some bind]. rewrite Hb. cbn [bind].
  pose proof (fun bf j Hbf => SizeFacts.sencode_within w p rf bf (Some g) Hbf j k) as SZ. assert (SZ' : forall bf j, Sizes.world_sizes w bf -> forall n vs v b v', foreign_of p n = None -> sencode w p rf (Some g) k n vs v = Ok (b, v') -> Sizes.within (Sizes.bounds p rf bf j n) (Z.of_nat (List.length b))) by (intros bf j Hbf n0 vs0 v0 b0 v0' _; apply (SZ bf j Hbf)). clear SZ.
  unfold se_top.
  assert (XS : forall (r : res ioerr (list Z * val)) b a, r = Ok (b, a) -> bytes_ok b -> exists b', se_xs w (fun x => lookup x inp) (Some g) [] (fa_xs (d_attr d)) r = Ok (b', a) /\ bytes_ok b').
  { intros r b a. apply (takes_valid w g (fun x => lookup x inp) [] [] (fun _ _ H => H) _ Hx). }
  assert (T : forall t v, has_ty w p rf g (has_decl w p rf g k) (fun x => lookup x inp) [] t v -> exists b, se_type w p rf (fun x => lookup x inp) (Some g) (sencode w p rf (Some g) k) [] t v = Ok (b, v) /\ bytes_ok b).
  { intros t v0 H0. eapply type_valid; eauto. intros ? ? ?. assumption. }
  destruct (d_ty d) as [e| | | |de|db|f|m args'|el lc|len tg items] eqn:Et;
    try (destruct H as (x & -> & Hv); destruct (T _ _ Hv) as (b & Eb & Bb); apply (XS _ b); [rewrite Eb; reflexivity|exact Bb]; fail).
  - destruct (T _ _ H) as (b & Eb & Bb). apply (XS _ b); assumption.
  - destruct (T _ _ H) as (b & Eb & Bb). apply (XS _ b); assumption.
  - destruct H as (x & _ & []).
  - assert (ST : (exists fs, v = VStruct (fa_name (d_attr d)) fs /\ fits_length w p rf (fun x => lookup x inp) [] (TCont len tg items) /\ has_fields w p rf g (has_decl w p rf g k) (fun x => lookup x inp) tg items fs) ->
      tg = false /\ exists b, (let! (b, vs) := se_limit w (fun x => lookup x inp) (Some g) [] len false (se_struct w p rf (fun x => lookup x inp) (Some g) (sencode w p rf (Some g) k) items v) in Ok (E := ioerr) (b, VStruct (fa_name (d_attr d)) vs)) = Ok (b, v) /\ bytes_ok b).
    { intros (fs & -> & Hfit & Hp & ND & Hn & HN & Hh). pose proof Hp as Hp2. rewrite plain_cont_eq in Hp2. apply andb_true_iff in Hp2 as (P2 & _). destruct tg; [discriminate P2|].
      split; [reflexivity|].
      destruct (struct_valid w p rf g (has_decl w p rf g k) (sencode w p rf (Some g) k) IH SZ' (fun x => lookup x inp) items fs (fa_name (d_attr d)) Hp ND Hn HN Hh) as (b & E & Bb).
      exists b. split; [|exact Bb]. rewrite (struct_limit w p rf g _ SZ' _ len items _ _ _ Hfit E). reflexivity. }
    destruct tg, len as [le|].
    + destruct (ST H) as (X & _). discriminate X.
    + cbn [se_limit]. destruct (variant_valid w p rf g _ _ IH SZ' _ _ _ _ H) as (b & Eb & Bb). apply (XS _ b); assumption.
    + destruct (ST H) as (_ & b & Eb & Bb). apply (XS _ b); assumption.
    + destruct (ST H) as (_ & b & Eb & Bb). apply (XS _ b); assumption.
Qed.
Theorem valid_sencode w p rf g k : forall n args v, has_decl w p rf g k n args v -> exists b, sencode w p rf (Some g) k n args v = Ok (b, v).
Proof. intros n args v H. destruct (valid_sencode_bytes _ _ _ _ _ _ _ _ H) as (b & E & _). eauto. Qed.
