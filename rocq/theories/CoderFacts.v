(** Facts about the reference semantics used by the coder properties. *)
From Verif Require Import ScalarFacts DecRef EncRef RtWf EnumBitsFacts RoundTrip Relax Reenc.
Open Scope string_scope. Open Scope Z_scope. Open Scope list_scope.

(** [vs] are read one after the other by [f]. *)
Inductive reads_seq (f : list Z -> res ioerr (val * list Z)) : list Z -> list val -> list Z -> Prop :=
| reads_nil l : reads_seq f l [] l
| reads_cons l v l1 vs rest : f l = Ok (v, l1) -> reads_seq f l1 vs rest -> reads_seq f l (v :: vs) rest.
(** [vs] are written one after the other by [f]. *)
Inductive writes_seq (f : val -> res ioerr (list Z * val)) : list val -> list Z -> Prop :=
| writes_nil : writes_seq f [] []
| writes_cons v v' b vs bs : f v = Ok (b, v') -> writes_seq f vs bs -> writes_seq f (v :: vs) (b ++ bs).

(** The type an array's elements are read as: the bulk representation of the resolved
    type where there is one. *)
Definition elem_ty (p : program) (rf : nat) (el : ty) : ty :=
  match kind_of (resolved p rf el) with KLoop => el | _ => resolved p rf el end.

Section Arr.
  Variable w : world.
  Variable p : program.
  Variable rf : nat.
  Variable inputs : string -> option val.
  Variable rec : string -> list val -> list Z -> res ioerr (val * list Z).
  Variable m : option good.
  Variable erec : string -> list val -> val -> res ioerr (list Z * val).
  Notation sd_type := (sd_type w p rf inputs rec).
  Notation se_type := (se_type w p rf inputs m erec).

  Lemma times_seq f n : forall l vs rest, sd_times f n l = Ok (vs, rest) -> List.length vs = n /\ reads_seq f l vs rest.
  Proof.
    induction n as [|n IH]; cbn [sd_times]; intros l vs rest H; [apply Ok_inj in H; injection H as <- <-; split; [reflexivity|constructor]|].
    bi H y Ey. destruct y as [v l1]. bi H z Ez. destruct z as [vs' l2]. apply Ok_inj in H. injection H as <- <-. destruct (IH _ _ _ Ez) as (L & R). split; [cbn; congruence|]. econstructor; eassumption.
  Qed.
  Lemma all_seq f fuel : forall l vs, sd_all f fuel l = Ok vs -> reads_seq f l vs [].
  Proof.
    induction fuel as [|fuel IH]; cbn [sd_all]; intros l vs H; [discriminate H|]. destruct l as [|z l]; [apply Ok_inj in H; subst; constructor|].
    bi H y Ey. destruct y as [v l1]. destruct (_ <? _)%nat; [|discriminate H]. bi H vs' Ez. apply Ok_inj in H. subst vs. econstructor; [exact Ey|apply IH, Ez].
  Qed.
  Lemma chunk_prims pr n : forall a rest, List.length a = (n * prim_size pr)%nat -> reads_seq (sd_prim pr) (a ++ rest) (map (prim_of pr) (chunks n (prim_size pr) a)) rest.
  Proof.
    induction n as [|n IH]; intros a rest L; cbn [chunks map]; [destruct a; [constructor|discriminate L]|].
    apply reads_cons with (l1 := skipn (prim_size pr) a ++ rest).
    - unfold sd_prim. rewrite <- (firstn_skipn (prim_size pr) a) at 1. rewrite <- app_assoc, read_exact_app by (apply firstn_length_le; lia). reflexivity.
    - apply IH. rewrite skipn_length. lia.
  Qed.
  Lemma chunk_reprs d n : forall a rest vs, List.length a = (n * size (es_scalar (repr_rep d)))%nat -> mapM (repr_of d) (chunks n (size (es_scalar (repr_rep d))) a) = Ok vs ->
    reads_seq (sd_repr d) (a ++ rest) vs rest /\ List.length vs = n.
  Proof.
    induction n as [|n IH]; intros a rest vs L H; cbn [chunks mapM] in H; [apply Ok_inj in H; subst; destruct a; [split; constructor|discriminate L]|].
    bi H y Ey. bi H ys Eys. apply Ok_inj in H. subst vs. destruct (IH (skipn (size (es_scalar (repr_rep d))) a) rest ys) as (R & Ln); [rewrite skipn_length; lia|assumption|]. split; [|cbn; congruence].
    apply reads_cons with (l1 := skipn (size (es_scalar (repr_rep d))) a ++ rest); [|exact R].
    unfold sd_repr. rewrite <- (firstn_skipn (size (es_scalar (repr_rep d))) a) at 1. rewrite <- app_assoc, read_exact_app by (apply firstn_length_le; lia). cbn [bind]. rewrite Ey. reflexivity.
  Qed.
  Lemma chunks_len n k l : List.length (chunks n k l) = n.
  Proof. revert l. induction n; intros l; cbn; [reflexivity|f_equal; auto]. Qed.

  Lemma kind_prim t pr en : kind_of t = KPrim pr -> forall l, sd_type en t l = sd_prim pr l.
  Proof. destruct t; cbn; intros H; try discriminate H; injection H as <-; reflexivity. Qed.
  Lemma kind_repr t d en : kind_of t = KRepr d -> forall l, sd_type en t l = sd_repr d l.
  Proof. destruct t; cbn; intros H; try discriminate H; injection H as <-; reflexivity. Qed.
  Lemma reads_ext f h l vs rest : (forall l, f l = h l) -> reads_seq f l vs rest -> reads_seq h l vs rest.
  Proof. intros E. induction 1; econstructor; [rewrite <- E|]; eassumption. Qed.

  Lemma arr_size_count k nv mm : (0 < k <= 16)%nat -> (w_chk w = true \/ forall s z, nv = VInt s z -> z < 2 ^ 60) -> arr_size (w_chk w) k nv = Ok mm ->
    exists s z, nv = VInt s z /\ z = Z.of_nat (mm / k) /\ mm = (mm / k * k)%nat.
  Proof.
    intros Hk Hc H. apply arr_size_ok in H as (s & z & -> & Hz & Em & _ & H1).
    assert (Hz' : z * Z.of_nat k < 2 ^ 64). { destruct Hc as [Hc|Hc]; [auto|]. specialize (Hc _ _ eq_refl). nia. }
    rewrite Z.mod_small in Em by nia. assert (Em' : mm = (Z.to_nat z * k)%nat) by (apply Nat2Z.inj; rewrite Nat2Z.inj_mul, Z2Nat.id by lia; exact Em).
    subst mm. rewrite Nat.div_mul by lia. exists s, z. split; [reflexivity|]. split; [lia|reflexivity].
  Qed.
  Lemma prim_size_le pr : (0 < prim_size pr <= 16)%nat.
  Proof. destruct pr as [| | |[[] ?]]; cbn; lia. Qed.
  Lemma size_le s : (0 < size s <= 16)%nat.
  Proof. destruct s; cbn; lia. Qed.

  Lemma fixed_reads en el e l v rest : (w_chk w = true \/ forall s z, ev w inputs en e = Ok (VInt s z) -> z < 2 ^ 60) -> sd_type en (TArr el (LFixed e)) l = Ok (v, rest) ->
    exists s z vs, ev w inputs en e = Ok (VInt s z) /\ v = VArr vs /\ Z.of_nat (List.length vs) = z /\ reads_seq (sd_type en (elem_ty p rf el)) l vs rest.
  Proof.
    intros Hc. cbn [Spec.sd_type sd_arr]. unfold elem_ty. intros H. bi H nv Env.
    assert (Hc' : w_chk w = true \/ forall s z, nv = VInt s z -> z < 2 ^ 60). { destruct Hc as [Hc|Hc]; [left; exact Hc|right; intros s z ->; eapply Hc; exact Env]. }
    destruct (kind_of (resolved p rf el)) as [pr|d|] eqn:K.
    - assert (H' : (let! n := arr_size (w_chk w) (prim_size pr) nv in read_prims pr n l) = Ok (v, rest)) by (destruct pr; [discriminate H| | |]; exact H). clear H. bi H' n En. destruct (arr_size_count _ _ _ (prim_size_le pr) Hc' En) as (s & z & -> & -> & Hm).
      unfold read_prims in H'. bi H' y Ey. destruct y as [a r]. apply Ok_inj in H'. injection H' as <- <-. apply read_exact_split in Ey as (-> & L).
      do 3 eexists. split; [exact Env|]. split; [reflexivity|]. split; [rewrite map_length, chunks_len; reflexivity|]. eapply reads_ext; [intros; symmetry; apply kind_prim; eassumption|]. apply chunk_prims. congruence.
    - bi H n En. destruct (arr_size_count _ _ _ (size_le _) Hc' En) as (s & z & -> & -> & Hm). unfold read_reprs in H. bi H y Ey. destruct y as [a r]. bi H vs Evs. apply Ok_inj in H. injection H as <- <-. apply read_exact_split in Ey as (-> & L).
      destruct (chunk_reprs d _ a r vs (eq_trans L Hm) Evs) as (R & Ln). do 3 eexists. split; [exact Env|]. split; [reflexivity|]. split; [congruence|]. eapply reads_ext; [intros; symmetry; apply kind_repr; eassumption|exact R].
    - bi H n En. destruct (len_of_ok _ _ En) as (s & -> & _). bi H y Ey. destruct y as [vs r]. apply Ok_inj in H. injection H as <- <-. destruct (times_seq _ _ _ _ _ Ey) as (L & R). do 3 eexists. split; [exact Env|]. split; [reflexivity|]. split; [congruence|exact R].
  Qed.

  (** Whole elements only: nothing is left over for byte-sized or looped elements. *)
  Definition elem_size (t : ty) : nat :=
    match kind_of (resolved p rf t) with KPrim pr => prim_size pr | KRepr d => size (es_scalar (repr_rep d)) | KLoop => 1 end.
  Lemma rest_reads en el l v rest : sd_type en (TArr el LRest) l = Ok (v, rest) ->
    rest = [] /\ exists vs tail, v = VArr vs /\ (List.length tail < elem_size el)%nat /\ reads_seq (sd_type en (elem_ty p rf el)) l vs tail.
  Proof.
    cbn [Spec.sd_type sd_arr]. unfold elem_ty, elem_size. intros H.
    assert (C : forall k, (0 < k)%nat -> let n := (List.length l / k)%nat in List.length (firstn (n * k) l) = (n * k)%nat /\ (List.length (skipn (n * k) l) < k)%nat /\ forall n' , (n' <= n)%nat -> chunks n' k l = chunks n' k (firstn (n * k) l)).
    { intros k Hk. cbn zeta. pose proof (Nat.div_mod (List.length l) k ltac:(lia)) as D. pose proof (Nat.mod_upper_bound (List.length l) k ltac:(lia)) as U. set (n := (List.length l / k)%nat) in *.
      split; [apply firstn_length_le; lia|]. split; [rewrite skipn_length; lia|]. clear D U H. clearbody n. revert l. induction n as [|n IH]; intros l n' Hn'; [assert (n' = 0)%nat by lia; subst; reflexivity|].
      destruct n' as [|n']; [reflexivity|]. cbn [chunks]. rewrite firstn_firstn, Nat.min_l by (cbn; nia). f_equal. rewrite (IH (skipn k l) n') by lia. f_equal. cbn [Nat.mul]. rewrite <- firstn_skipn_comm. reflexivity. }
    destruct (kind_of (resolved p rf el)) as [pr|d|] eqn:K.
    - assert (H' : Ok (VArr (map (prim_of pr) (sd_chunks (prim_size pr) l)), []) = Ok (E := ioerr) (v, rest)) by (destruct pr; [discriminate H| | |]; exact H). clear H. apply Ok_inj in H'. injection H' as <- <-. split; [reflexivity|].
      destruct (C (prim_size pr) (prim_size_pos pr)) as (C1 & C2 & C3). unfold sd_chunks. rewrite (C3 _ (le_n _)). do 2 eexists. split; [reflexivity|]. split; [exact C2|].
      eapply reads_ext; [intros; symmetry; apply kind_prim; eassumption|]. rewrite <- (firstn_skipn (List.length l / prim_size pr * prim_size pr) l) at 1. apply chunk_prims. exact C1.
    - bi H vs Evs. apply Ok_inj in H. injection H as <- <-. split; [reflexivity|]. destruct (C _ (size_pos (es_scalar (repr_rep d)))) as (C1 & C2 & C3). unfold sd_chunks in Evs. rewrite (C3 _ (le_n _)) in Evs. do 2 eexists. split; [reflexivity|]. split; [exact C2|].
      eapply reads_ext; [intros; symmetry; apply kind_repr; eassumption|]. rewrite <- (firstn_skipn (List.length l / size (es_scalar (repr_rep d)) * size (es_scalar (repr_rep d))) l) at 1. eapply chunk_reprs; eassumption.
    - bi H vs Evs. apply Ok_inj in H. injection H as <- <-. split; [reflexivity|]. do 2 eexists. split; [reflexivity|]. split; [|eapply all_seq; eassumption]. cbn. lia.
  Qed.
End Arr.

Definition no_blen (f : fattr * ty) : Prop := match fa_calc (fst f) with None => True | Some e => blen_calls e = Some [] end.

Section Items.
  Variable w : world.
  Variable inputs : string -> option val.
  Variable m : option good.

  Lemma sd_items_app its1 its2 : forall en l vs rest, sd_items w inputs (its1 ++ its2) en l = Ok (vs, rest) ->
    exists vs1 l1 vs2, sd_items w inputs its1 en l = Ok (vs1, l1) /\ sd_items w inputs its2 (rev vs1 ++ en) l1 = Ok (vs2, rest) /\ vs = vs1 ++ vs2.
  Proof.
    induction its1 as [|f its1 IH]; intros en l vs rest H; [exists [], l, vs; auto|]. cbn [app sd_items] in *. bi H y Ey. destruct y as [v1 l1]. bi H z Ez. destruct z as [vs' l2]. apply Ok_inj in H. injection H as <- <-.
    destruct (IH _ _ _ _ Ez) as (vs1 & l1' & vs2 & E1 & E2 & ->). exists (v1 ++ vs1), l1', vs2. rewrite Ey. cbn [bind]. rewrite E1. cbn [bind]. split; [reflexivity|]. split; [|apply app_assoc]. rewrite rev_app_distr, <- app_assoc. exact E2.
  Qed.
  Lemma sd_items_split its1 f its2 en l vs rest : sd_items w inputs (its1 ++ f :: its2) en l = Ok (vs, rest) ->
    exists vs1 l1 vs2 l2 vs3, sd_items w inputs its1 en l = Ok (vs1, l1) /\ sd_field w inputs f (rev vs1 ++ en) l1 = Ok (vs2, l2)
      /\ sd_items w inputs its2 (rev vs2 ++ rev vs1 ++ en) l2 = Ok (vs3, rest) /\ vs = vs1 ++ vs2 ++ vs3.
  Proof.
    intros H. destruct (sd_items_app _ _ _ _ _ _ H) as (vs1 & l1 & vs2 & E1 & E2 & ->). cbn [sd_items] in E2. bi E2 y Ey. destruct y as [v2 l2]. bi E2 z Ez. destruct z as [vs3 l3]. apply Ok_inj in E2. injection E2 as <- <-. do 5 eexists. eauto.
  Qed.

  Definition item_ok (f : seitem) : Prop := no_blen (fst f).
  Lemma se_items_acc its : Forall item_ok its -> forall en c out vs0, se_items w inputs m its en c out vs0 None = let! (b, vs) := se_items w inputs m its en c [] [] None in Ok (out ++ b, vs0 ++ vs).
  Proof.
    induction 1 as [|[[a t] k] its Hf _ IH]; intros en c out vs0; [cbn; rewrite !app_nil_r; reflexivity|]. cbn [se_items]. unfold item_ok, no_blen in Hf. cbn [fst] in Hf.
    assert (P : forall (X : res ioerr val),
      (let! v := X in let! (b, (vs, n)) := se_field w inputs m (a, t, k) en v c false in se_items w inputs m its en c (out ++ b) (vs0 ++ vs) None) =
      (let! (b, vs) := (let! v := X in let! (b, (vs, n)) := se_field w inputs m (a, t, k) en v c false in se_items w inputs m its en c ([] ++ b) ([] ++ vs) None) in Ok (out ++ b, vs0 ++ vs))).
    { intros [v| | |]; cbn [bind]; try reflexivity. destruct (se_field w inputs m (a, t, k) en v c false) as [[b [vs n]]| | |]; cbn [bind]; try reflexivity. cbn [app].
      rewrite (IH en c (out ++ b) (vs0 ++ vs)), (IH en c b vs). destruct (se_items w inputs m its en c [] [] None) as [[b' vs']| | |]; cbn [bind]; try reflexivity. rewrite !app_assoc. reflexivity. }
    destruct (fa_calc a) as [e|]; [rewrite Hf|]; apply P.
  Qed.
  Lemma se_items_split its1 a t k its2 en c b vs : Forall item_ok (its1 ++ (a, t, k) :: its2) -> se_items w inputs m (its1 ++ (a, t, k) :: its2) en c [] [] None = Ok (b, vs) ->
    exists b1 vs1 v b2 vs2 n b3 vs3, se_items w inputs m its1 en c [] [] None = Ok (b1, vs1)
      /\ (is_cont t || fa_pad a = false -> lookup (fa_name a) en = Some v)
      /\ se_field w inputs m (a, t, k) en v c false = Ok (b2, (vs2, n)) /\ se_items w inputs m its2 en c [] [] None = Ok (b3, vs3)
      /\ b = b1 ++ b2 ++ b3 /\ vs = vs1 ++ vs2 ++ vs3.
  Proof.
    revert b vs. induction its1 as [|[[a1 t1] k1] its1 IH]; intros b vs HF H; cbn [app] in *.
    - inversion HF as [|? ? H1 H2]; subst. unfold item_ok, no_blen in H1. cbn [fst] in H1. cbn [se_items] in H.
      assert (H' : (let! v := (if is_cont t || fa_pad a then Ok (VBool false) else of_some (lookup (fa_name a) en)) in let! (b, (vs, n)) := se_field w inputs m (a, t, k) en v c false in se_items w inputs m its2 en c ([] ++ b) ([] ++ vs) None) = Ok (b, vs)) by (destruct (fa_calc a) as [e|]; [rewrite H1 in H|]; exact H).
      clear H. bi H' v Ev. bi H' y Ey. destruct y as [b2 [vs2 n]]. rewrite se_items_acc in H' by assumption. bi H' z Ez. destruct z as [b3 vs3]. apply Ok_inj in H'. injection H' as <- <-.
      exists [], [], v, b2, vs2, n, b3, vs3. split; [reflexivity|]. split; [|auto]. intros E. rewrite E in Ev. destruct (lookup _ _); [apply Ok_inj in Ev; congruence|discriminate Ev].
    - inversion HF as [|? ? H1 H2]; subst. unfold item_ok, no_blen in H1. cbn [fst] in H1. cbn [se_items] in H.
      assert (H' : (let! v := (if is_cont t1 || fa_pad a1 then Ok (VBool false) else of_some (lookup (fa_name a1) en)) in let! (b, (vs, n)) := se_field w inputs m (a1, t1, k1) en v c false in se_items w inputs m (its1 ++ (a, t, k) :: its2) en c ([] ++ b) ([] ++ vs) None) = Ok (b, vs)) by (destruct (fa_calc a1) as [e|]; [rewrite H1 in H|]; exact H).
      clear H. bi H' v0 Ev. bi H' y Ey. destruct y as [b0 [vs0 n0]]. rewrite se_items_acc in H' by assumption. bi H' z Ez. destruct z as [b3 vs3]. apply Ok_inj in H'. injection H' as <- <-.
      destruct (IH _ _ H2 Ez) as (b1 & vs1 & v & b2 & vs2 & n & b4 & vs4 & E1 & E2 & E3 & E4 & -> & ->). exists (b0 ++ b1), (vs0 ++ vs1), v, b2, vs2, n, b4, vs4.
      apply Forall_app in H2 as (H2 & _). split; [|cbn [app]; rewrite <- !app_assoc; auto]. cbn [se_items].
      destruct (fa_calc a1) as [e|]; [rewrite H1|]; rewrite Ev; cbn [bind]; rewrite Ey; cbn [bind app]; rewrite se_items_acc by assumption; rewrite E1; reflexivity.
  Qed.
End Items.

(** The scope in which a struct's fields are written: stored fields have the user's
    value, calculated ones the value of their formula. *)
Definition scope_of (w : world) (inp : string -> option val) (leaves : list (fattr * ty)) (fs en : list (string * val)) : Prop :=
  (forall f, In f leaves -> fa_calc (fst f) = None -> fa_pad (fst f) = false -> exists v, lookup (fa_name (fst f)) fs = Some v /\ lookup (fa_name (fst f)) en = Some v)
  /\ (forall f e, In f leaves -> fa_calc (fst f) = Some e -> blen_calls e = Some [] ->
       exists v, eval w inp (fun n => lookup n en) e = Ok v /\ lookup (fa_name (fst f)) en = Some v).

Section Scope.
  Variable w : world.
  Variable inp : string -> option val.

  Lemma refs_scope l fs : NoDup (map (fun f => fa_name (fst f)) (filter (fun f => negb (fa_pad (fst f))) l)) -> forall en0 en, se_refs l fs en0 = Ok en ->
    (forall f, In f l -> fa_calc (fst f) = None -> fa_pad (fst f) = false -> exists v, lookup (fa_name (fst f)) fs = Some v /\ lookup (fa_name (fst f)) en = Some v)
    /\ (forall n, ~ In n (map (fun f => fa_name (fst f)) (filter (fun f => negb (fa_pad (fst f)) && negb (is_some (fa_calc (fst f)))) l)) -> lookup n en = lookup n en0).
  Proof.
    induction l as [|[a t] l IH]; cbn [se_refs filter map fst]; intros ND en0 en H; [apply Ok_inj in H; subst; split; [intros f []|reflexivity]|].
    destruct (fa_pad a) eqn:Ep; cbn [negb andb] in *.
    - rewrite orb_true_r in H. destruct (IH ND _ _ H) as (A & B). split; [|exact B]. intros f [<-|Hf]; [cbn; congruence|apply A, Hf].
    - rewrite orb_false_r in H. cbn [map fst] in ND. inversion ND as [|? ? N1 N2]; subst. destruct (fa_calc a) as [e|] eqn:Ec; cbn [is_some negb] in *.
      + destruct (IH N2 _ _ H) as (A & B). split; [|exact B]. intros f [<-|Hf]; [cbn; congruence|apply A, Hf].
      + bi H v Ev. destruct (IH N2 _ _ H) as (A & B). destruct (lookup (fa_name a) fs) as [v'|] eqn:El; [|discriminate Ev]. apply Ok_inj in Ev. subst v'.
        assert (Hn : ~ In (fa_name a) (map (fun f => fa_name (fst f)) (filter (fun f => negb (fa_pad (fst f)) && negb (is_some (fa_calc (fst f)))) l))).
        { intros Hi. apply N1. apply in_map_iff in Hi as (f & E1 & E2). apply filter_In in E2 as (E2 & E3). apply andb_true_iff in E3 as (E3 & _). apply in_map_iff. exists f. split; [exact E1|]. apply filter_In. auto. }
        split.
        * intros f [<-|Hf]; [|apply A, Hf]. cbn [fst]. intros _ _. exists v. split; [exact El|]. rewrite (B _ Hn), lookup_cons, String.eqb_refl. reflexivity.
        * cbn [map fst]. intros n Hnn. rewrite B by (intros Hi; apply Hnn; right; exact Hi). rewrite lookup_cons. destruct (String.eqb_spec (fa_name a) n); [exfalso; apply Hnn; left; assumption|reflexivity].
  Qed.
  Lemma calcs_scope l : NoDup (map (fun f => fa_name (fst f)) (filter (fun f => negb (fa_pad (fst f))) l)) -> (forall f, In f l -> fa_pad (fst f) = true -> fa_calc (fst f) = None) ->
    forall en0 en, se_calcs w inp l en0 = Ok en -> (forall f, In f l -> is_some (fa_calc (fst f)) = true -> lookup (fa_name (fst f)) en0 = None) ->
    (forall n x, lookup n en0 = Some x -> lookup n en = Some x)
    /\ (forall f e, In f l -> fa_calc (fst f) = Some e -> blen_calls e = Some [] -> exists v, eval w inp (fun n => lookup n en) e = Ok v /\ lookup (fa_name (fst f)) en = Some v).
  Proof.
    induction l as [|[a t] l IH]; cbn [se_calcs filter map fst]; intros ND HP en0 en H HN; [apply Ok_inj in H; subst; split; [auto|intros f e []]|].
    assert (ND' : NoDup (map (fun f => fa_name (fst f)) (filter (fun f => negb (fa_pad (fst f))) l))) by (destruct (negb (fa_pad a)); [cbn [map] in ND; inversion ND; assumption|exact ND]).
    destruct (fa_calc a) as [e|] eqn:Ec.
    - destruct (fa_pad a) eqn:Ep; [pose proof (HP (a, t) (or_introl eq_refl) Ep) as X; cbn in X; congruence|]. cbn [negb map fst] in ND. inversion ND as [|? ? N1 N2]; subst.
      destruct (blen_calls e) as [[|c0 cs]|] eqn:Eb; [| |discriminate H].
      + bi H v Ev. destruct (IH ND' (fun f Hf => HP f (or_intror Hf)) _ _ H) as (A & B).
        { intros f Hf Hc. rewrite lookup_cons. destruct (String.eqb_spec (fa_name a) (fa_name (fst f))) as [E|]; [|apply HN; [right; exact Hf|exact Hc]]. exfalso. apply N1. rewrite E. apply in_map_iff. exists f. split; [reflexivity|]. apply filter_In. split; [exact Hf|].
          destruct (fa_pad (fst f)) eqn:Epf; [|reflexivity]. rewrite (HP f (or_intror Hf) Epf) in Hc. discriminate Hc. }
        assert (A' : forall n x, lookup n en0 = Some x -> lookup n en = Some x).
        { intros n x Hx. apply A. rewrite lookup_cons. destruct (String.eqb_spec (fa_name a) n) as [<-|]; [|exact Hx]. pose proof (HN (a, t) (or_introl eq_refl)) as Q. cbn [fst] in Q. rewrite Ec in Q. specialize (Q eq_refl). congruence. }
        split; [exact A'|]. intros f e' [<-|Hf] He' Hb; [|eapply B; eassumption]. cbn [fst] in *. assert (e' = e) by congruence. subst e'. exists v. split; [|apply A; rewrite lookup_cons, String.eqb_refl; reflexivity].
        revert Ev. unfold ev, eval. apply reval_mono. intros n x _. apply A'.
      + destruct (IH ND' (fun f Hf => HP f (or_intror Hf)) _ _ H (fun f Hf => HN f (or_intror Hf))) as (A & B). split; [exact A|]. intros f e' [<-|Hf] He' Hb; [cbn in He'; congruence|eapply B; eassumption].
    - destruct (IH ND' (fun f Hf => HP f (or_intror Hf)) _ _ H (fun f Hf => HN f (or_intror Hf))) as (A & B). split; [exact A|]. intros f e' [<-|Hf] He' Hb; [cbn in He'; congruence|eapply B; eassumption].
  Qed.
End Scope.

Lemma ewf_calc t : forall vis f, ewf vis t = true -> In f (flatten_ty t) -> fa_pad (fst f) = true -> fa_calc (fst f) = None.
Proof.
  induction t using ty_ind'; intros vis f Ht Hi Hp; try contradiction. cbn [ewf] in Ht. rewrite !andb_true_iff in Ht. destruct Ht as (_ & Ht). rewrite flatten_ty_cont in Hi. revert Ht. generalize (vis ++ leaf_names items). intros vis' Ht.
  induction items as [|[a t] items IH]; [contradiction|]. inversion H as [|? ? H1 H2]; subst. cbn [forallb fst snd] in Ht. rewrite !andb_true_iff in Ht. destruct Ht as ((T1 & T2) & T3). rewrite flatten_cons in Hi. apply in_app_iff in Hi as [Hi|Hi]; [|apply IH; assumption].
  unfold flatten_field in Hi. cbn [snd] in Hi. destruct (is_cont t) eqn:Ec; [eapply H1; eassumption|]. destruct Hi as [<-|[]]. cbn [fst] in *. unfold attr_ok in T1. cbn [fst snd] in T1. rewrite Ec, Hp in T1. apply andb_true_iff in T1 as (_ & T1). destruct (fa_calc a); [discriminate T1|reflexivity].
Qed.

(** What the generated code of a program needs (checked by [prog_ok] for a given one). *)
Definition compiles (p : program) (rf : nat) : Prop :=
  dec_ok p rf /\ forall n d, p n = Some d -> enc_wf d = true /\ enc_code p rf d <> None.

Section Decl.
  Variable w : world.
  Variable p : program.
  Variable rf : nat.
  Hypothesis Hw : world_suffixing w.
  Hypothesis Hp : compiles p rf.

  (** The generated decoder reads what the reference semantics reads. *)
  Lemma decode_top k n args d inp l : p n = Some d -> bind_params w (d_params d) args [] = Ok inp ->
    decode w p rf (S k) n args l = sd_top w p rf (fun x => lookup x inp) (sdecode w p rf k) d l.
  Proof.
    intros Hd Hi. destruct (decode_refines w p rf Hw (proj1 Hp) (S k) n args l) as (-> & _). cbn [sdecode]. rewrite Hd. cbn [of_some bind]. rewrite Hi. reflexivity.
  Qed.
  Lemma encode_top k n args d inp v : p n = Some d -> bind_params w (d_params d) args [] = Ok inp ->
    encode w p rf (S k) n args v = let! (b, _) := se_top w p rf (fun x => lookup x inp) None (sencode w p rf None k) d v in Ok b.
  Proof.
    intros Hd Hi. rewrite (encode_refines w p rf (proj2 Hp)). cbn [sencode]. rewrite Hd. cbn [of_some bind]. rewrite Hi. reflexivity.
  Qed.
  Lemma decode_struct k n args d inp items l v rest : p n = Some d -> bind_params w (d_params d) args [] = Ok inp -> d_ty d = TCont None false items -> fa_xs (d_attr d) = [] ->
    decode w p rf (S k) n args l = Ok (v, rest) -> exists vs, v = VStruct (fa_name (d_attr d)) vs /\
      sd_items w (fun x => lookup x inp) (map (sd_item w p rf (fun x => lookup x inp) (sdecode w p rf k)) items) [] l = Ok (vs, rest).
  Proof.
    intros Hd Hi Ht Hx. rewrite (decode_top k n args d inp l Hd Hi). unfold sd_top. rewrite Ht, Hx. cbn [rev sd_xs sd_limit]. intros H. bi H y Ey. destruct y as [vs r]. apply Ok_inj in H. injection H as <- <-. eauto.
  Qed.
  Lemma encode_struct k n args d inp items nm fs b : p n = Some d -> bind_params w (d_params d) args [] = Ok inp -> d_ty d = TCont None false items -> fa_xs (d_attr d) = [] ->
    encode w p rf (S k) n args (VStruct nm fs) = Ok b -> exists en vs, scope_of w (fun x => lookup x inp) (flatten_items items) fs en /\
      se_items w (fun x => lookup x inp) None (map (se_item w p rf (fun x => lookup x inp) None (sencode w p rf None k)) items) en false [] [] None = Ok (b, vs).
  Proof.
    intros Hd Hi Ht Hx. rewrite (encode_top k n args d inp _ Hd Hi). unfold se_top. rewrite Ht, Hx. cbn [se_xs se_limit]. intros H. bi H y Ey. destruct y as [b0 v0]. apply Ok_inj in H. subst b0. bi Ey y E1. destruct y as [b0 vs]. apply Ok_inj in Ey. injection Ey as -> <-.
    unfold se_struct in E1. bi E1 en0 E0. bi E1 en E2. exists en, vs. split; [|exact E1].
    destruct (proj1 Hp _ _ Hd) as ((_ & _ & W) & _). rewrite Ht in W. destruct W as (_ & ND). destruct (proj2 Hp _ _ Hd) as (W & _). unfold enc_wf in W. rewrite Ht, !andb_true_iff in W. destruct W as (_ & W & _).
    assert (EF : filter (fun f => negb (fa_pad (fst f))) (flatten_items items) = filter leaf (flatten_items items)).
    { apply filter_ext_in. intros f Hf. unfold leaf. rewrite (flat_leaf_items items f Hf), orb_false_r. reflexivity. }
    assert (ND' : NoDup (map (fun f => fa_name (fst f)) (filter (fun f => negb (fa_pad (fst f))) (flatten_items items)))) by (rewrite EF; exact ND).
    assert (HPc : forall f, In f (flatten_items items) -> fa_pad (fst f) = true -> fa_calc (fst f) = None) by (intros f Hf; apply (ewf_calc _ _ f W); rewrite flatten_ty_cont; exact Hf).
    assert (R : (forall f, In f (flatten_items items) -> fa_calc (fst f) = None -> fa_pad (fst f) = false -> exists v, lookup (fa_name (fst f)) fs = Some v /\ lookup (fa_name (fst f)) en0 = Some v)
                /\ forall f, In f (flatten_items items) -> is_some (fa_calc (fst f)) = true -> lookup (fa_name (fst f)) en0 = None).
    { destruct (existsb _ (flatten_items items)) eqn:Eex.
      - cbn [fields_of bind] in E0. destruct (refs_scope (flatten_items items) fs ND' _ _ E0) as (A & B). split; [exact A|]. intros f Hf Hc. rewrite B; [apply lookup_nil|]. intros Hin. apply in_map_iff in Hin as (f' & N1 & N2). apply filter_In in N2 as (N2 & N3). apply andb_true_iff in N3 as (N3 & N4).
        assert (f' = f); [|subst f'; rewrite Hc in N4; discriminate N4].
        assert (G : forall l, NoDup (map (fun f => fa_name (fst f)) (filter (fun f => negb (fa_pad (fst f))) l)) -> In f l -> In f' l -> fa_pad (fst f) = false -> fa_pad (fst f') = false -> fa_name (fst f') = fa_name (fst f) -> f' = f).
        { clear. intros l ND H1 H2 P1 P2 E. assert (I1 : In f (filter (fun f => negb (fa_pad (fst f))) l)) by (apply filter_In; rewrite P1; auto). assert (I2 : In f' (filter (fun f => negb (fa_pad (fst f))) l)) by (apply filter_In; rewrite P2; auto).
          clear H1 H2. induction (filter (fun f => negb (fa_pad (fst f))) l) as [|x xs IH]; [contradiction|]. cbn [map] in ND. inversion ND as [|? ? N1 N2]; subst.
          destruct I1 as [->|I1], I2 as [->|I2]; [reflexivity| | |auto]; exfalso; apply N1; [rewrite <- E|rewrite E]; apply in_map_iff; eauto. }
        apply (G _ ND' Hf N2); [|apply negb_true_iff; exact N3|exact N1]. destruct (fa_pad (fst f)) eqn:Ep; [|reflexivity]. rewrite (HPc f Hf Ep) in Hc. discriminate Hc.
      - apply Ok_inj in E0. subst en0. split; [|intros; apply lookup_nil]. intros f Hf H1 H2. exfalso. assert (existsb (fun f => negb (is_some (fa_calc (fst f))) && negb (fa_pad (fst f))) (flatten_items items) = true); [|congruence]. apply existsb_exists. exists f. rewrite H1, H2. auto. }
    destruct R as (R1 & R2). destruct (calcs_scope w _ (flatten_items items) ND' HPc _ _ E2 R2) as (C1 & C2). split; [|exact C2].
    intros f Hf H1 H2. destruct (R1 f Hf H1 H2) as (v & V1 & V2). eauto.
  Qed.
End Decl.

Lemma sd_xs_inv {A} w inp en xs (k : list Z -> res ioerr (A * list Z)) : forall l a rest, sd_xs w inp en xs k l = Ok (a, rest) -> exists l' r', k l' = Ok (a, r').
Proof.
  induction xs as [|x xs IH]; intros l a rest H; cbn [sd_xs] in H; [eauto|]. bi H b Eb. destruct b; [|eapply IH; exact H]. bi H vs Evs. bi H y Ey. destruct y as [pl r]. bi H z Ez. destruct z as [a' r']. apply Ok_inj in H. injection H as <- <-. eapply IH; exact Ez.
Qed.
Lemma se_xs_inv {A} w inp m en xs (k : res ioerr (list Z * A)) : forall b a, se_xs w inp m en xs k = Ok (b, a) -> exists b', k = Ok (b', a).
Proof.
  induction xs as [|x xs IH]; intros b a H; cbn [se_xs] in H; [eauto|]. bi H c Ec. destruct c; [|eapply IH; exact H]. bi H vs Evs. bi H y Ey. destruct y as [b0 a0]. bi H b1 Eb1.
  assert (a0 = a) by (unfold refuse in H; destruct m; [destruct (g_x _ _ _ _); [|discriminate H]|]; apply Ok_inj in H; congruence). subst a0. eapply IH; exact Ey.
Qed.

Section Cond.
  Variable w : world.
  Variable p : program.
  Variable rf : nat.
  Variable inp : string -> option val.
  Variable rec : string -> list val -> list Z -> res ioerr (val * list Z).
  Variable erec : string -> list val -> val -> res ioerr (list Z * val).
  Variable m : option good.

  Lemma sd_complex_leaf a t en l : leaf (a, t) = true -> sd_complex w p rf inp rec a t en l = let! (v, l) := sd_type w p rf inp rec en t l in Ok ([(fa_name a, v)], l).
  Proof. unfold leaf. cbn [fst snd]. intros H. apply negb_true_iff, orb_false_iff in H as (H1 & H2). destruct t; try discriminate H2; cbn [sd_complex]; rewrite H1; reflexivity. Qed.
  Lemma se_complex_leaf a t en v c pd : leaf (a, t) = true -> se_complex w p rf inp m erec a t en v c pd = let! (b, v') := se_type w p rf inp m erec en t v in Ok (b, [(fa_name a, v')]).
  Proof. unfold leaf. cbn [fst snd]. intros H. apply negb_true_iff, orb_false_iff in H as (H1 & H2). destruct t; try discriminate H2; cbn [se_complex]; rewrite H1; reflexivity. Qed.

  (** Reading a conditional field (a leaf or a whole container). *)
  Lemma cond_field_read a t e en l vs rest : fa_cond a = Some e -> fa_pad a = false -> sd_field w inp (sd_item w p rf inp rec (a, t)) en l = Ok (vs, rest) ->
    exists c, eval w inp (fun n => lookup n en) e = Ok (VBool c) /\
      (c = false -> rest = l /\ vs = map (fun n => (n, VOpt None)) (leaf_names (flatten_field (a, t)))) /\
      (c = true -> exists us, vs = map (fun nv => (fst nv, VOpt (Some (snd nv)))) us /\ sd_xs w inp en (rev (fa_xs a)) (sd_complex w p rf inp rec a t en) l = Ok (us, rest)).
  Proof.
    intros Hc Hp H. unfold sd_field, sd_item in H. cbn [fst snd] in H. rewrite Hc, Hp in H. bi H c Ec. bi H b Eb. destruct c as [| c0 | | | | | | | | | | |]; try discriminate Eb. cbn in Eb. apply Ok_inj in Eb. subst b. exists c0. split; [exact Ec|]. destruct c0.
    - bi H y Ey. destruct y as [us r]. apply Ok_inj in H. injection H as <- <-. split; [discriminate|]. eauto.
    - apply Ok_inj in H. injection H as <- <-. split; [auto|discriminate].
  Qed.
  Lemma cond_leaf_write a t e en v c b vs n pd : fa_cond a = Some e -> leaf (a, t) = true -> fa_calc a = None -> se_field w inp m (se_item w p rf inp m erec (a, t)) en v c pd = Ok (b, (vs, n)) ->
    exists d, eval w inp (fun n => lookup n en) e = Ok (VBool d) /\ (d = false -> b = [] /\ vs = [(fa_name a, VOpt None)]) /\
      (d = true -> exists x x', v = VOpt (Some x) /\ vs = [(fa_name a, VOpt (Some x'))] /\ (fa_xs a = [] -> se_type w p rf inp m erec en t x = Ok (b, x'))).
  Proof.
    intros Hc Hl Hk H. pose proof Hl as Hl'. unfold leaf in Hl'. cbn [fst snd] in Hl'. apply negb_true_iff, orb_false_iff in Hl' as (Hp & Ht). unfold se_field, se_item in H. cbn [fst snd] in H. rewrite Hc, Hp, Hk, Ht in H. cbn [negb is_some andb] in H. bi H c0 Ec. bi H d Ed.
    destruct c0 as [| d0 | | | | | | | | | | |]; try discriminate Ed. cbn in Ed. apply Ok_inj in Ed. subst d. exists d0. split; [exact Ec|]. destruct d0.
    - bi H y Ey. destruct y as [b0 [vs0 n0]]. apply Ok_inj in H. injection H as <- <- <-. split; [discriminate|]. intros _.
      destruct (se_xs_inv _ _ _ _ _ _ _ _ Ey) as (b' & K). bi K x Ex. bi K z Ez. destruct z as [b2 vs2]. apply Ok_inj in K. injection K as -> <- <-. rewrite se_complex_leaf in Ez by exact Hl. bi Ez u Eu. destruct u as [b3 x']. apply Ok_inj in Ez. injection Ez as <- <-.
      exists x, x'. split; [destruct v as [| | | | | | | |o| | | |]; try discriminate Ex; destruct o; [cbn in Ex; apply Ok_inj in Ex; congruence|discriminate Ex]|]. split; [reflexivity|]. intros Hx. rewrite Hx in Ey. cbn [se_xs] in Ey. rewrite Ex in Ey. cbn [bind] in Ey. rewrite se_complex_leaf, Eu in Ey by exact Hl. cbn [bind] in Ey. apply Ok_inj in Ey. injection Ey as <-. exact Eu.
    - apply Ok_inj in H. injection H as <- <- <-. split; [|discriminate]. intros _. split; [reflexivity|]. unfold flatten_field. cbn [snd]. rewrite Ht. unfold leaf_names. cbn [filter]. rewrite Hl. reflexivity.
  Qed.
End Cond.
