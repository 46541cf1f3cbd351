(** Readers never put bytes back, and what they read has the generated type. *)
From Verif Require Import ScalarFacts ConstIntFacts DecRef RtWf EnumBitsFacts RoundTrip CoderFacts Data.
Open Scope string_scope. Open Scope Z_scope. Open Scope list_scope.

(** ** Consumption *)

(** [f] consumes at least [b] bytes. *)
Definition drops {A} (b : bool) (f : list Z -> res ioerr (A * list Z)) : Prop :=
  forall l a rest, f l = Ok (a, rest) -> (List.length rest + Nat.b2n b <= List.length l)%nat.

Section Eats.
  Variable p : program.
  Variables ef em : string -> bool.   (* foreign types and declarations known to read a byte *)
  Definition ty_eats (t : ty) : bool :=
    match t with
    | TScalar _ | TF32 | TF64 | TBool | TEnum _ | TBits _ => true
    | TForeign f => ef f
    | TRef n _ => match foreign_of p n with Some f => ef f | None => em n end
    | TArr _ _ | TCont _ _ _ => false
    end.
  Fixpoint complex_eats (a : fattr) (t : ty) {struct t} : bool :=
    negb (fa_pad a) &&
    match t with
    | TCont _ _ items => existsb (fun f => negb (is_some (fa_cond (fst f))) && match fa_xs (fst f) with [] => complex_eats (fst f) (snd f) | _ => false end) items
    | t => ty_eats t
    end.
  Definition field_eats (f : fattr * ty) : bool :=
    negb (is_some (fa_cond (fst f))) && match fa_xs (fst f) with [] => complex_eats (fst f) (snd f) | _ => false end.
  Definition decl_eats (d : decl) : bool :=
    match fa_xs (d_attr d) with
    | [] =>
        match d_ty d with
        | TCont _ false items => existsb field_eats items
        | TCont _ true items => forallb (fun f => match fa_xs (fst f) with [] => complex_eats (fst f) (snd f) | _ => false end) items
        | t => ty_eats t
        end
    | _ => false
    end.
End Eats.

Lemma drops_weak {A} b (f : list Z -> res ioerr (A * list Z)) : drops b f -> drops false f.
Proof. intros H l a rest E. apply H in E. cbn. lia. Qed.
Lemma suffixing_drops {A} (f : list Z -> res ioerr (A * list Z)) : suffixing f -> drops false f.
Proof. intros H l a rest E. apply H in E as (j & Hj & ->). rewrite skipn_length. cbn. lia. Qed.
Lemma read_exact_drops n : drops (negb (n =? 0)%nat) (read_exact n).
Proof. intros l a rest E. apply read_exact_ok in E as (-> & E). rewrite app_length. destruct n; cbn; lia. Qed.

Section Drop.
  Variable w : world.
  Variable p : program.
  Variable rf : nat.
  Variables ef em : string -> bool.
  Hypothesis Hf : forall n vs, drops (ef n) (w_fdec w n vs).
  Hypothesis Hx : forall n vs, drops false (w_xdec w n vs).
  Variable inp : string -> option val.
  Variable rec : string -> list val -> list Z -> res ioerr (val * list Z).
  Hypothesis Hr : forall n vs, drops (em n) (rec n vs).

  Lemma size_pos s : (0 < size s)%nat. Proof. destruct s; cbn; lia. Qed.
  Lemma sd_prim_drops pr : drops true (sd_prim pr).
  Proof.
    intros l a rest H. unfold sd_prim in H. bi H x Ex. destruct x as [b r]. apply Ok_inj in H. injection H as <- <-. apply read_exact_drops in Ex.
    pose proof (prim_size_le pr). destruct (prim_size pr); cbn in *; lia.
  Qed.
  Lemma sd_repr_drops d : drops true (sd_repr d).
  Proof.
    intros l a rest H. unfold sd_repr in H. bi H x Ex. destruct x as [b r]. bi H v Ev. apply Ok_inj in H. injection H as <- <-. apply read_exact_drops in Ex.
    pose proof (size_pos (es_scalar (repr_rep d))). destruct (size (es_scalar (repr_rep d))); cbn in *; lia.
  Qed.
  Lemma sd_times_drops f n : drops false f -> drops false (sd_times f n).
  Proof.
    intros H. induction n as [|n IH]; intros l a rest E; cbn [sd_times] in E; [apply Ok_inj in E; injection E as <- <-; cbn; lia|].
    bi E x Ex. destruct x as [v l1]. bi E y Ey. destruct y as [vs l2]. apply Ok_inj in E. injection E as <- <-. apply H in Ex. apply IH in Ey. cbn in *. lia.
  Qed.
  Lemma sd_until_drops fill tm f k : drops false f -> drops false (sd_until fill tm f k).
  Proof.
    intros H. induction k as [|k IH]; intros l a rest E; cbn [sd_until] in E; [discriminate|]. cbn zeta in E.
    destruct (_ =? 0)%nat; [apply Ok_inj in E; injection E as <- <-; cbn; lia|]. destruct (_ <? _)%nat; [discriminate|].
    destruct (zlist_eqb _ _); [apply Ok_inj in E; injection E as <- <-; rewrite skipn_length; cbn; lia|].
    bi E x Ex. destruct x as [v l1]. destruct (_ <? _)%nat; [|discriminate]. bi E y Ey. destruct y as [vs l2]. apply Ok_inj in E. injection E as <- <-. apply H in Ex. apply IH in Ey. cbn in *. lia.
  Qed.
  Lemma read_prims_drops pr n : drops false (read_prims pr n).
  Proof. apply suffixing_drops, read_prims_suffix. Qed.
  Lemma read_reprs_drops pr n : drops false (read_reprs pr n).
  Proof. apply suffixing_drops, read_reprs_suffix. Qed.
  Lemma sd_arr_drops f en el lc : drops false f -> drops false (sd_arr w p rf inp f en el lc).
  Proof.
    intros H l a rest E. destruct lc as [e| |e]; cbn [sd_arr] in E.
    - bi E nv Env. destruct (kind_of _) as [pr|d|].
      + destruct pr; try discriminate; bi E n En; eapply read_prims_drops; eassumption.
      + bi E n En. eapply read_reprs_drops; eassumption.
      + bi E n En. bi E x Ex. destruct x as [vs l1]. apply Ok_inj in E. injection E as <- <-. eapply sd_times_drops; eassumption.
    - destruct (kind_of _) as [pr|d|].
      + destruct pr; try discriminate; apply Ok_inj in E; injection E as <- <-; cbn; lia.
      + bi E n En. apply Ok_inj in E. injection E as <- <-. cbn; lia.
      + bi E n En. apply Ok_inj in E. injection E as <- <-. cbn; lia.
    - bi E tv Etv. bi E tb Etb. bi E x Ex. destruct x as [vs l1]. apply Ok_inj in E. injection E as <- <-. eapply sd_until_drops; eassumption.
  Qed.
  Lemma sd_type_drops t : forall en, drops (ty_eats p ef em t) (sd_type w p rf inp rec en t).
  Proof.
    induction t as [e| | | |d|d|n|n args|el lc IH|len tg items _] using ty_ind'; intros en l a rest E; cbn [sd_type ty_eats] in *;
      try (eapply sd_prim_drops; eassumption); try (eapply sd_repr_drops; eassumption).
    - eapply Hf; eassumption.
    - bi E vs Evs. unfold foreign_of. destruct (p n) as [[da dt dp]|] eqn:Ep.
      + destruct dt; first [eapply Hr; eassumption|eapply Hf; eassumption].
      + eapply Hr; eassumption.
    - eapply sd_arr_drops; [|eassumption]. eapply drops_weak, IH.
    - discriminate.
  Qed.
  Lemma sd_xs_drops {A} en xs (k : list Z -> res ioerr (A * list Z)) b : drops b k -> drops (b && match xs with [] => true | _ => false end) (sd_xs w inp en xs k).
  Proof.
    intros H. destruct xs as [|x xs]; [cbn [sd_xs]; rewrite andb_true_r; exact H|]. rewrite andb_false_r. apply drops_weak in H. clear b. revert x.
    assert (G : forall xs, drops false (sd_xs w inp en xs k)).
    { clear xs. intros xs. induction xs as [|x xs IH]; cbn [sd_xs]; [exact H|]. intros l a rest E. bi E b Eb. destruct b; [|eapply IH; eassumption].
      bi E vs Evs. bi E y Ey. destruct y as [pl r]. bi E z Ez. destruct z as [a' r']. apply Ok_inj in E. injection E as <- <-. apply Hx in Ey. exact Ey. }
    intros x. apply G.
  Qed.
  Lemma sd_limit_drops {A} en len (k : list Z -> res ioerr (A * list Z)) b : drops b k -> drops b (sd_limit w inp en len k).
  Proof.
    intros H. destruct len as [e|]; [|exact H]. intros l a rest E. cbn [sd_limit] in E. bi E v Ev. bi E n En. bi E x Ex. destruct x as [a' r]. apply Ok_inj in E. injection E as <- <-.
    apply H in Ex. rewrite app_length, skipn_length, firstn_length in *. lia.
  Qed.
  Lemma rev_nil {A} (l : list A) : match rev l with [] => true | _ => false end = match l with [] => true | _ => false end.
  Proof. destruct l as [|x l]; [reflexivity|]. cbn [rev]. destruct (rev l); reflexivity. Qed.
  Lemma sd_field_drops a t k b : (forall en, drops b (k en)) -> forall en,
    drops (negb (is_some (fa_cond a)) && match fa_xs a with [] => b | _ => false end) (sd_field w inp (a, t, k) en).
  Proof.
    intros H en l v rest E. unfold sd_field in E. pose proof (sd_xs_drops en (rev (fa_xs a)) (k en) b (H en)) as G. rewrite rev_nil in G.
    destruct (fa_cond a) as [e|]; cbn [is_some negb andb].
    - apply drops_weak in G. bi E c Ec. destruct (fa_pad a); [eapply G; eassumption|]. bi E bb Ebb. destruct bb.
      + bi E x Ex. destruct x as [vs l1]. apply Ok_inj in E. injection E as <- <-. eapply G; eassumption.
      + apply Ok_inj in E. injection E as <- <-. cbn. lia.
    - apply G in E. destruct (fa_xs a), b; exact E.
  Qed.
  Lemma sd_items_drops (bs : fattr * ty -> bool) its : Forall (fun f => forall en, drops (bs (fst f)) (snd f en)) its -> forall en,
    drops (existsb (fun f => negb (is_some (fa_cond (fst f))) && match fa_xs (fst f) with [] => bs f | _ => false end) (map fst its)) (sd_items w inp its en).
  Proof.
    induction 1 as [|[[a t] k] its Hk _ IH]; intros en l v rest E; cbn [sd_items map existsb] in *; [apply Ok_inj in E; injection E as <- <-; cbn; lia|].
    bi E x Ex. destruct x as [vs l1]. bi E y Ey. destruct y as [vs' l2]. apply Ok_inj in E. injection E as <- <-.
    apply (sd_field_drops a t k (bs (a, t)) Hk) in Ex. apply IH in Ey. cbn [fst snd] in *. destruct (negb _ && _); cbn [orb Nat.b2n] in *; destruct (existsb _ _); cbn [Nat.b2n] in *; lia.
  Qed.
  Lemma sd_complex_drops t : forall a en, drops (complex_eats p ef em a t) (sd_complex w p rf inp rec a t en).
  Proof.
    assert (P : forall a t en, fa_pad a = true -> drops (complex_eats p ef em a t) (sd_complex w p rf inp rec a t en)).
    { intros a t0 en Hp l v rest E. replace (complex_eats p ef em a t0) with false by (destruct t0; cbn [complex_eats]; rewrite Hp; reflexivity). destruct t0; cbn [sd_complex] in E; rewrite Hp in E; try discriminate.
      destruct l0; try discriminate. bi E x Ex. bi E n En. bi E y Ey. destruct y as [b r]. apply Ok_inj in E. injection E as <- <-. apply read_exact_drops in Ey. cbn. lia. }
    assert (L : forall t, is_cont t = false -> forall a en, drops (complex_eats p ef em a t) (sd_complex w p rf inp rec a t en)).
    { intros t0 Ht a en. destruct (fa_pad a) eqn:Hp; [apply P; exact Hp|]. intros l v rest E. rewrite sd_complex_leaf in E by (unfold leaf; cbn [fst snd]; rewrite Hp, Ht; reflexivity).
      bi E x Ex. destruct x as [u r]. apply Ok_inj in E. injection E as <- <-. apply sd_type_drops in Ex. destruct t0; try discriminate; cbn [complex_eats]; rewrite Hp; exact Ex. }
    induction t as [e| | | |d|d|n|n args|el lc IH|len tg items IH] using ty_ind'; intros a en; try (apply L; reflexivity).
    destruct (fa_pad a) eqn:Hp; [apply P; exact Hp|]. cbn [sd_complex complex_eats]. rewrite Hp. cbn [negb andb]. destruct tg; [intros l v rest E; discriminate|].
    apply sd_limit_drops. pose proof (sd_items_drops (fun f => complex_eats p ef em (fst f) (snd f)) (map (sd_item w p rf inp rec) items)) as G.
    assert (Q : map fst (map (sd_item w p rf inp rec) items) = items). { rewrite map_map. rewrite <- (map_id items) at 2. apply map_ext. intros [? ?]. reflexivity. }
    rewrite Q in G. apply G. apply Forall_map. eapply Forall_impl; [|exact IH]. intros [a0 t0] H en0. cbn [fst snd sd_item] in *. apply H.
  Qed.
  Lemma sd_variants_drops name items : drops (forallb (fun f => match fa_xs (fst f) with [] => complex_eats p ef em (fst f) (snd f) | _ => false end) items) (sd_variants w p rf inp rec name items).
  Proof.
    induction items as [|[a t] items IH]; intros l v rest E; cbn [sd_variants forallb fst snd] in *; [discriminate|]. bi E b Eb. destruct b.
    - bi E x Ex. destruct x as [vs l1]. pose proof (sd_xs_drops [] (rev (fa_xs a)) _ _ (sd_complex_drops t a [])) as G. rewrite rev_nil in G. apply G in Ex.
      assert (l1 = rest). { destruct (is_cont t); [apply Ok_inj in E; congruence|]. destruct vs as [|[? ?] ?]; [discriminate|]. apply Ok_inj in E. congruence. } subst l1.
      destruct (fa_xs a); [|cbn [andb Nat.b2n]; rewrite andb_false_r in Ex; cbn in Ex; lia]. rewrite andb_true_r in Ex. destruct (complex_eats _ _ _ _ _); cbn [andb Nat.b2n] in *; destruct (forallb _ _); cbn [Nat.b2n]; lia.
    - apply IH in E. destruct (match fa_xs a with [] => _ | _ => _ end); cbn [andb Nat.b2n] in *; lia.
  Qed.
  Lemma sd_top_drops d : drops (decl_eats p ef em d) (sd_top w p rf inp rec d).
  Proof.
    unfold sd_top. match goal with |- drops _ (fun l => sd_xs _ _ _ _ ?k0 l) => set (k := k0) end.
    pose (b := match d_ty d with TCont _ false items => existsb (field_eats p ef em) items
        | TCont _ true items => forallb (fun f => match fa_xs (fst f) with [] => complex_eats p ef em (fst f) (snd f) | _ => false end) items | t => ty_eats p ef em t end).
    assert (G : drops b k).
    { unfold b, k. intros l v rest E. cbv beta in E. destruct (d_ty d) as [e| | | |e|e|n|n args|el lc|len tg items];
        try (bi E x Ex; destruct x as [u r]; apply Ok_inj in E; injection E as <- <-; eapply sd_type_drops; exact Ex); try (eapply sd_type_drops; exact E).
      destruct tg.
      - eapply sd_limit_drops; [|exact E]. apply sd_variants_drops.
      - bi E x Ex. destruct x as [u r]. apply Ok_inj in E. injection E as <- <-. eapply sd_limit_drops; [|exact Ex].
        pose proof (sd_items_drops (fun f => complex_eats p ef em (fst f) (snd f)) (map (sd_item w p rf inp rec) items)) as G.
        assert (Q : map fst (map (sd_item w p rf inp rec) items) = items). { rewrite map_map. rewrite <- (map_id items) at 2. apply map_ext. intros [? ?]. reflexivity. }
        rewrite Q in G. apply G. apply Forall_map. apply Forall_forall. intros [a0 t0] _ en0. cbn [fst snd sd_item]. apply sd_complex_drops. }
    intros l v rest E. apply (sd_xs_drops [] (rev (fa_xs (d_attr d))) k b G) in E. rewrite rev_nil in E. unfold decl_eats, b in *. destruct (fa_xs (d_attr d)).
    - rewrite andb_true_r in E. exact E.
    - rewrite andb_false_r in E. exact E.
  Qed.
End Drop.

Lemma sdecode_drops w p rf ef em : (forall n vs, drops (ef n) (w_fdec w n vs)) -> (forall n vs, drops false (w_xdec w n vs)) ->
  (forall n d, p n = Some d -> em n = true -> decl_eats p ef em d = true) ->
  forall k n args, drops (em n) (sdecode w p rf k n args).
Proof.
  intros Hf Hx He. induction k as [|k IH]; intros n args l v rest E; cbn [sdecode] in E; [discriminate|].
  destruct (p n) as [d|] eqn:Ep; cbn [of_some bind] in E; [|discriminate]. bi E inp Ei. eapply sd_top_drops in E; [| | |exact IH]; [|eassumption|eassumption].
  destruct (em n) eqn:En; [|cbn; lia]. rewrite (He _ _ Ep En) in E. exact E.
Qed.

(** ** Typing *)
Definition okl (l : list Z) : Prop := Z.of_nat (List.length l) < 2 ^ 63.
Lemma okl_le l l' : okl l -> (List.length l' <= List.length l)%nat -> okl l'.
Proof. unfold okl. lia. Qed.
Lemma okl_drops {A} b (f : list Z -> res ioerr (A * list Z)) l a rest : drops b f -> f l = Ok (a, rest) -> okl l -> okl rest.
Proof. intros H E. apply H in E. intros G. eapply okl_le; [exact G|lia]. Qed.

Section HasFacts.
  Variable p : program.
  Variable F : string -> val -> Prop.
  Notation has := (has p F). Notation has_fields := (has_fields p F).
  Lemma has_fields_app ts vs ts' vs' : has_fields ts vs -> has_fields ts' vs' -> has_fields (ts ++ ts') (vs ++ vs').
  Proof. induction 1; intros H'; cbn; [exact H'|constructor; auto]. Qed.
  Definition opt_fields (ts : list (string * rty)) := map (fun nt => (fst nt, RTOpt (snd nt))) ts.
  Lemma has_fields_wrap ts vs : has_fields ts vs -> has_fields (opt_fields ts) (wrap_some vs).
  Proof. induction 1; cbn; constructor; auto. constructor. assumption. Qed.
  Lemma has_fields_none ts : has_fields (opt_fields ts) (all_none (map fst ts)).
  Proof. induction ts as [|[n t] ts IH]; cbn; constructor; auto. constructor. Qed.
  Lemma has_fields_lookup ts vs n v : has_fields ts vs -> lookup n vs = Some v -> exists t, lookup n ts = Some t /\ has t v.
  Proof. induction 1 as [|m t ts v' vs Hv _ IH]; [discriminate|]. rewrite !lookup_cons. destruct (String.eqb m n); [intros H; apply Some_inj in H; subst; eauto|auto]. Qed.
  Lemma has_fields_lookup' ts vs n t : has_fields ts vs -> lookup n ts = Some t -> exists v, lookup n vs = Some v /\ has t v.
  Proof. induction 1 as [|m t' ts v' vs Hv _ IH]; [discriminate|]. rewrite !lookup_cons. destruct (String.eqb m n); [intros H; apply Some_inj in H; subst; eauto|auto]. Qed.
  Lemma has_fields_rev ts vs : has_fields ts vs -> has_fields (rev ts) (rev vs).
  Proof. induction 1; cbn; [constructor|]. apply has_fields_app; [assumption|]. constructor; [assumption|constructor]. Qed.
End HasFacts.

Section Typed.
  Variable w : world.
  Variable p : program.
  Variable rf : nat.
  Variable F : string -> val -> Prop.
  Hypothesis Hf : forall n vs, drops false (w_fdec w n vs).
  Hypothesis Hx : forall n vs, drops false (w_xdec w n vs).
  Hypothesis HF : forall f vs l v rest, okl l -> w_fdec w f vs l = Ok (v, rest) -> F f v.
  Hypothesis HX : forall x vs l pl rest, okl l -> w_xdec w x vs l = Ok (pl, rest) -> okl pl.
  Hypothesis Hwf : forall n d, p n = Some d -> data_wf p rf n d = true.
  Variable inp : string -> option val.
  Variable rec : string -> list val -> list Z -> res ioerr (val * list Z).
  Hypothesis Hr : forall n vs, drops false (rec n vs).
  Hypothesis HR : forall n vs l v rest, foreign_of p n = None -> okl l -> rec n vs l = Ok (v, rest) -> has p F (RTNamed n) v.
  Notation has := (has p F). Notation has_fields := (has_fields p F).

  Lemma type_drops en t : drops false (sd_type w p rf inp rec en t).
  Proof. eapply drops_weak. apply (sd_type_drops w p rf (fun _ => false) (fun _ => false)); assumption. Qed.

  Lemma prim_has pr l : has (match pr with PBool => RTBool | PF32 => RTF32 | PF64 => RTF64 | PScalar e => RTInt (es_scalar e) end) (prim_of pr l).
  Proof. destruct pr as [| | |e]; cbn [prim_of]; constructor; apply wrap_in_range. Qed.
  Lemma from_repr_to items : names_once items = true -> forall z x, from_repr items z = Ok x -> to_repr items x = Some z.
  Proof.
    assert (N : forall its z x, from_repr its z = Ok x -> lookup (match x with VNamed n => n | VDefault n _ => n end) its <> None).
    { induction its as [|[n o] it IH]; intros z x H; cbn [from_repr] in H; [discriminate H|]. destruct o as [v|].
      - destruct (z =? v); [apply Ok_inj in H; subst; rewrite lookup_cons, String.eqb_refl; discriminate|]. apply IH in H. rewrite lookup_cons. destruct (String.eqb n _); [discriminate|exact H].
      - apply Ok_inj in H. subst. rewrite lookup_cons, String.eqb_refl. discriminate. }
    induction items as [|[n o] it IH]; intros U z x H; cbn [from_repr] in H; [discriminate|]. cbn [names_once] in U. apply andb_true_iff in U as (U1 & U2). destruct o as [v|].
    - destruct (Z.eqb_spec z v) as [->|D]; [apply Ok_inj in H; subst; cbn [to_repr]; rewrite lookup_cons, String.eqb_refl; reflexivity|].
      pose proof (N _ _ _ H) as H'. specialize (IH U2 _ _ H). unfold to_repr in *. destruct x as [m|m raw]; rewrite lookup_cons; (destruct (String.eqb_spec n m) as [->|D']; [destruct (lookup m it); cbn in U1; [discriminate U1|congruence]|exact IH]).
    - apply Ok_inj in H. subst. cbn [to_repr]. rewrite lookup_cons, String.eqb_refl. reflexivity.
  Qed.
  Lemma repr_has n d r l v : p n = Some d -> (d_ty d = match r with RpEnum e => TEnum e | RpBits e => TBits e end) -> repr_of r l = Ok v -> has (RTNamed n) v.
  Proof.
    intros Ep Et H. pose proof (Hwf _ _ Ep) as W. unfold data_wf in W. apply andb_true_iff in W as (_ & W). destruct r as [e|e]; cbn [repr_of] in H; bi H x Ex; apply Ok_inj in H; subst v; rewrite Et in W.
    - eapply HEnum; [exact Ep|unfold data_of; rewrite Et; reflexivity|eapply from_repr_to; eassumption|apply wrap_in_range].
    - unfold bf_from_repr in Ex. destruct (_ =? 0); [|discriminate]. apply Ok_inj in Ex. subst x. eapply HBits; [exact Ep|unfold data_of; rewrite Et; reflexivity|apply wrap_in_range].
  Qed.
  Lemma mapM_in {A B} (f : A -> res ioerr B) l : forall vs v, mapM f l = Ok vs -> In v vs -> exists x, In x l /\ f x = Ok v.
  Proof.
    induction l as [|x l IH]; intros vs v H Hin; cbn [mapM] in H; [apply Ok_inj in H; subst; destruct Hin|]. bi H y Ey. bi H ys Eys. apply Ok_inj in H. subst vs.
    destruct Hin as [->|Hin]; [exists x; split; [left; reflexivity|assumption]|]. destruct (IH _ _ Eys Hin) as (x' & I & E). exists x'. split; [right; assumption|assumption].
  Qed.
  Lemma mapM_len {A B} (f : A -> res ioerr B) l : forall vs, mapM f l = Ok vs -> List.length vs = List.length l.
  Proof. induction l as [|x l IH]; intros vs H; cbn [mapM] in H; [apply Ok_inj in H; subst; reflexivity|]. bi H y Ey. bi H ys Eys. apply Ok_inj in H. subst vs. cbn. rewrite (IH _ Eys). reflexivity. Qed.
  Lemma chunks_len' k : forall n l, List.length (chunks n k l) = n.
  Proof. induction n as [|n IH]; intros l; cbn; [reflexivity|]. rewrite IH. reflexivity. Qed.

  Lemma times_has f n r : drops false f -> (forall l v rest, okl l -> f l = Ok (v, rest) -> has r v) -> forall l vs rest, okl l -> sd_times f n l = Ok (vs, rest) ->
    List.length vs = n /\ forall v, In v vs -> has r v.
  Proof.
    intros D H. induction n as [|n IH]; intros l vs rest O E; cbn [sd_times] in E; [apply Ok_inj in E; injection E as <- <-; split; [reflexivity|contradiction]|].
    bi E x Ex. destruct x as [v l1]. bi E y Ey. destruct y as [us l2]. apply Ok_inj in E. injection E as <- <-. destruct (IH _ _ _ (okl_drops _ _ _ _ _ D Ex O) Ey) as (L & I).
    split; [cbn; lia|]. intros u [<-|Hu]; [eapply H; eassumption|auto].
  Qed.
  Lemma all_has f r : drops false f -> (forall l v rest, okl l -> f l = Ok (v, rest) -> has r v) -> forall k l vs, okl l -> sd_all f k l = Ok vs ->
    (List.length vs <= List.length l)%nat /\ forall v, In v vs -> has r v.
  Proof.
    intros D H. induction k as [|k IH]; intros l vs O E; cbn [sd_all] in E; [discriminate|]. destruct l as [|b l]; [apply Ok_inj in E; subst; split; [cbn; lia|contradiction]|].
    bi E x Ex. destruct x as [v l1]. destruct (Nat.ltb_spec (List.length l1) (List.length (b :: l))); [|discriminate]. bi E us Eu. apply Ok_inj in E. subst vs.
    destruct (IH _ _ (okl_drops _ _ _ _ _ D Ex O) Eu) as (L & I). split; [cbn [List.length] in *; lia|]. intros u [<-|Hu]; [eapply H; eassumption|auto].
  Qed.
  Lemma until_has fill tm f r : drops false f -> (forall l v rest, okl l -> f l = Ok (v, rest) -> has r v) -> forall k l vs rest, okl l -> sd_until fill tm f k l = Ok (vs, rest) ->
    (List.length vs <= List.length l)%nat /\ forall v, In v vs -> has r v.
  Proof.
    intros D H. induction k as [|k IH]; intros l vs rest O E; cbn [sd_until] in E; [discriminate|]. cbn zeta in E.
    destruct (_ =? 0)%nat; [apply Ok_inj in E; injection E as <- <-; split; [cbn; lia|contradiction]|]. destruct (_ <? _)%nat; [discriminate|].
    destruct (zlist_eqb _ _); [apply Ok_inj in E; injection E as <- <-; split; [cbn; lia|contradiction]|].
    bi E x Ex. destruct x as [v l1]. destruct (Nat.ltb_spec (List.length l1) (List.length l)); [|discriminate]. bi E y Ey. destruct y as [us l2]. apply Ok_inj in E. injection E as <- <-.
    destruct (IH _ _ _ (okl_drops _ _ _ _ _ D Ex O) Ey) as (L & I). split; [cbn [List.length] in *; lia|]. intros u [<-|Hu]; [eapply H; eassumption|auto].
  Qed.

  Lemma bulk_prim el pr : bulk_ok p rf el = true -> kind_of (resolved p rf el) = KPrim pr -> kind_of el = KPrim pr.
  Proof.
    unfold bulk_ok. intros B K. rewrite K in B. destruct (kind_of el) as [pr'| |] eqn:E; try discriminate. rewrite <- K, <- E. destruct el; try discriminate E; destruct rf; reflexivity.
  Qed.
  Lemma bulk_repr el r : bulk_ok p rf el = true -> kind_of (resolved p rf el) = KRepr r ->
    exists n args d, el = TRef n args /\ p n = Some d /\ d_ty d = match r with RpEnum e => TEnum e | RpBits e => TBits e end.
  Proof.
    unfold bulk_ok. intros B K. rewrite K in B. destruct el; try discriminate. destruct (p n) as [d|] eqn:Ep; [|discriminate]. exists n, args, d. split; [reflexivity|]. split; [exact Ep|].
    destruct rf as [|k]; cbn [resolved] in K; [discriminate|]. rewrite Ep in K. destruct (d_ty d) eqn:Et; try discriminate; destruct k; cbn in K; injection K as <-; reflexivity.
  Qed.

  Lemma kind_prim_ref el pr : kind_of el = KPrim pr -> type_ref p el = Some (match pr with PBool => RTBool | PF32 => RTF32 | PF64 => RTF64 | PScalar e => RTInt (es_scalar e) end).
  Proof. destruct el; cbn; intros H; try discriminate; injection H as <-; reflexivity. Qed.

  Lemma arr_has f en el lc r l v rest : bulk_ok p rf el = true -> type_ref p el = Some r -> drops false f -> (forall l v rest, okl l -> f l = Ok (v, rest) -> has r v) -> okl l ->
    sd_arr w p rf inp f en el lc l = Ok (v, rest) -> has (RTVec r) v.
  Proof.
    intros B T D H O E.
    assert (RP : forall pr m, kind_of (resolved p rf el) = KPrim pr -> read_prims pr m l = Ok (v, rest) -> has (RTVec r) v).
    { intros pr m K E'. unfold read_prims in E'. bi E' x Ex. destruct x as [raw r0]. apply Ok_inj in E'. injection E' as <- <-. apply (bulk_prim el pr B) in K. rewrite (kind_prim_ref _ _ K) in T. apply Some_inj in T. subst r.
      apply read_exact_ok in Ex as (-> & L). constructor; [intros u Hu; apply in_map_iff in Hu as (c & <- & _); apply prim_has|]. rewrite map_length, chunks_len'. unfold okl in O. rewrite app_length in O.
      pose proof (Nat.div_le_upper_bound m (prim_size pr) m). pose proof (prim_size_le pr). assert (m / prim_size pr <= m)%nat by (apply Nat.div_le_upper_bound; nia). lia. }
    assert (RR : forall d m, kind_of (resolved p rf el) = KRepr d -> read_reprs d m l = Ok (v, rest) -> has (RTVec r) v).
    { intros d m K E'. unfold read_reprs in E'. bi E' x Ex. destruct x as [raw r0]. bi E' vs Evs. apply Ok_inj in E'. injection E' as <- <-. destruct (bulk_repr el d B K) as (n & args & dd & -> & Ep & Et).
      cbn [type_ref] in T. rewrite Ep, Et in T. assert (r = RTNamed n) as -> by (destruct d; congruence).
      apply read_exact_ok in Ex as (-> & L). constructor; [intros u Hu; destruct (mapM_in _ _ _ _ Evs Hu) as (c & _ & Ec); eapply repr_has; eassumption|]. rewrite (mapM_len _ _ _ Evs), chunks_len'. unfold okl in O. rewrite app_length in O.
      pose proof (size_pos (es_scalar (repr_rep d))). assert (m / size (es_scalar (repr_rep d)) <= m)%nat by (apply Nat.div_le_upper_bound; nia). lia. }
    destruct lc as [e| |e]; cbn [sd_arr] in E.
    - bi E nv Env. destruct (kind_of (resolved p rf el)) as [pr|d|] eqn:K.
      + destruct pr; try discriminate; bi E n En; eapply RP; [reflexivity|exact E|reflexivity|exact E|reflexivity|exact E].
      + bi E n En. eapply RR; [reflexivity|exact E].
      + bi E n En. bi E x Ex. destruct x as [vs l1]. apply Ok_inj in E. injection E as <- <-. destruct (times_has f n r D H _ _ _ O Ex) as (L & I). apply len_of_ok in En as (s & _ & Hn).
        constructor; [exact I|rewrite L; exact Hn].
    - unfold okl in O. destruct (kind_of (resolved p rf el)) as [pr|d|] eqn:K.
      + assert (Q : Ok (VArr (map (prim_of pr) (sd_chunks (prim_size pr) l)), []) = Ok (v, rest) :> res ioerr (val * list Z)) by (destruct pr; [discriminate|exact E..]). apply Ok_inj in Q. injection Q as <- <-.
        apply (bulk_prim el pr B) in K. rewrite (kind_prim_ref _ _ K) in T. apply Some_inj in T. subst r. constructor; [intros u Hu; apply in_map_iff in Hu as (c & <- & _); apply prim_has|].
        rewrite map_length. unfold sd_chunks. rewrite chunks_len'. pose proof (prim_size_le pr). assert (List.length l / prim_size pr <= List.length l)%nat by (apply Nat.div_le_upper_bound; nia). lia.
      + bi E vs Evs. apply Ok_inj in E. injection E as <- <-. destruct (bulk_repr el d B K) as (n & args & dd & -> & Ep & Et). cbn [type_ref] in T. rewrite Ep, Et in T. assert (r = RTNamed n) as -> by (destruct d; congruence).
        constructor; [intros u Hu; destruct (mapM_in _ _ _ _ Evs Hu) as (c & _ & Ec); eapply repr_has; eassumption|]. rewrite (mapM_len _ _ _ Evs). unfold sd_chunks. rewrite chunks_len'.
        pose proof (size_pos (es_scalar (repr_rep d))). assert (List.length l / size (es_scalar (repr_rep d)) <= List.length l)%nat by (apply Nat.div_le_upper_bound; nia). lia.
      + bi E vs Evs. apply Ok_inj in E. injection E as <- <-. destruct (all_has f r D H _ _ _ O Evs) as (L & I). constructor; [exact I|lia].
    - bi E tv Etv. bi E tb Etb. bi E x Ex. destruct x as [vs l1]. apply Ok_inj in E. injection E as <- <-. destruct (until_has _ _ f r D H _ _ _ _ O Ex) as (L & I). unfold okl in O. constructor; [exact I|lia].
  Qed.

  Lemma type_has t : data_ty p rf t = true -> exists r, type_ref p t = Some r /\ forall en l v rest, okl l -> sd_type w p rf inp rec en t l = Ok (v, rest) -> has r v.
  Proof.
    induction t as [e| | | |d|d|n|n args|el lc IH|len tg items _] using ty_ind'; cbn [data_ty type_ref]; intros H; try discriminate.
    1-4: eexists; split; [reflexivity|]; intros en l v rest O E; cbn [sd_type] in E; unfold sd_prim in E; bi E x Ex; destruct x as [a r0]; apply Ok_inj in E; injection E as <- <-.
    - apply (prim_has (PScalar e)). - apply (prim_has PF32). - apply (prim_has PF64). - apply (prim_has PBool).
    - eexists; split; [reflexivity|]. intros en l v rest O E. constructor. eapply HF; eassumption.
    - destruct (p n) as [d|] eqn:Ep; [|discriminate]. destruct d as [da dt dp]. cbn [d_ty].
      assert (G : foreign_of p n = match dt with TForeign f => Some f | _ => None end) by (unfold foreign_of; rewrite Ep; reflexivity).
      destruct dt; (eexists; split; [reflexivity|]; intros en l0 v rest O E; cbn [sd_type] in E; rewrite Ep in E; bi E vs Evs; first [eapply HR; eassumption|constructor; eapply HF; eassumption]).
    - apply andb_true_iff in H as (H1 & H2). destruct (IH H1) as (r & T & G). exists (RTVec r). rewrite T. split; [reflexivity|]. intros en l v rest O E. cbn [sd_type] in E.
      eapply arr_has; [exact H2|exact T| |apply G|exact O|exact E]. apply type_drops.
  Qed.

  Lemma xs_has {A} en xs (k : list Z -> res ioerr (A * list Z)) (P : A -> Prop) : (forall l a rest, okl l -> k l = Ok (a, rest) -> P a) -> forall l a rest, okl l -> sd_xs w inp en xs k l = Ok (a, rest) -> P a.
  Proof.
    intros H. induction xs as [|x xs IH]; intros l a rest O E; cbn [sd_xs] in E; [eapply H; eassumption|]. bi E b Eb. destruct b; [|eapply IH; eassumption].
    bi E vs Evs. bi E y Ey. destruct y as [pl r]. bi E z Ez. destruct z as [a' r']. apply Ok_inj in E. injection E as <- <-. eapply IH; [|exact Ez]. eapply HX; eassumption.
  Qed.
  Lemma limit_has {A} en len (k : list Z -> res ioerr (A * list Z)) (P : A -> Prop) : (forall l a rest, okl l -> k l = Ok (a, rest) -> P a) -> forall l a rest, okl l -> sd_limit w inp en len k l = Ok (a, rest) -> P a.
  Proof.
    intros H l a rest O E. destruct len as [e|]; cbn [sd_limit] in E; [|eapply H; eassumption]. bi E v Ev. bi E n En. bi E x Ex. destruct x as [a' r]. apply Ok_inj in E. injection E as <- <-.
    eapply H; [|exact Ex]. eapply okl_le; [exact O|]. rewrite firstn_length. lia.
  Qed.

  (** What a nested field contributes, its own condition aside. *)
  Definition gen_complex (a : fattr) (t : ty) : option (list (string * rty)) :=
    if fa_pad a then Some [] else
    match t with
    | TCont _ _ items => gen_fields p false items
    | t => match type_ref p t with Some r => Some [(fa_name a, r)] | None => None end
    end.
  Lemma gen_field_cont c a len tg items : fa_pad a = false -> gen_field p c a (TCont len tg items) = gen_fields p (c || is_some (fa_cond a)) items.
  Proof. intros Hp. cbn [gen_field]. rewrite Hp. induction items as [|f items IH]; cbn [gen_fields]; [reflexivity|]. rewrite IH. reflexivity. Qed.
  Lemma gen_field_none a t : fa_cond a = None -> gen_field p false a t = gen_complex a t.
  Proof.
    intros H. unfold gen_complex. destruct (fa_pad a) eqn:Hp; [destruct t; cbn [gen_field]; rewrite Hp; reflexivity|].
    destruct t; try (cbn [gen_field]; rewrite Hp, H; reflexivity). rewrite gen_field_cont, H by exact Hp. reflexivity.
  Qed.
  Lemma opt_app a b : opt_fields (a ++ b) = opt_fields a ++ opt_fields b. Proof. apply map_app. Qed.
  Lemma gen_true : forall t a ts, data_field p rf true a t = true -> gen_field p false a t = Some ts -> gen_field p true a t = Some (opt_fields ts).
  Proof.
    assert (L : forall t a ts, is_cont t = false -> data_field p rf true a t = true -> gen_field p false a t = Some ts -> gen_field p true a t = Some (opt_fields ts)).
    { intros t a ts Hc H G. destruct (fa_pad a) eqn:Hp; [destruct t; cbn [gen_field] in *; rewrite Hp in *; apply Some_inj in G; subst; reflexivity|].
      assert (Hcd : is_some (fa_cond a) = false) by (destruct t; cbn [data_field] in H; rewrite Hp in H; cbn [andb] in H; apply andb_true_iff in H as (H & _); (destruct (is_some (fa_cond a)); [discriminate|reflexivity])).
      destruct t; try discriminate; cbn [gen_field] in *; rewrite Hp, Hcd in *; cbn [orb] in *; (destruct (type_ref p _); [|discriminate]); apply Some_inj in G; subst; reflexivity. }
    induction t as [e| | | |d|d|n|n args|el lc IH|len tg items IH] using ty_ind'; intros a ts H G; try (apply L; [reflexivity|assumption..]).
    destruct (fa_pad a) eqn:Hp; [cbn [data_field] in H; rewrite Hp in H; discriminate|]. rewrite gen_field_cont in * by exact Hp. cbn [data_field] in H. rewrite Hp in H. apply andb_true_iff in H as (H1 & H2).
    assert (Hcd : is_some (fa_cond a) = false) by (cbn [andb] in H1; destruct (is_some (fa_cond a)); [discriminate|reflexivity]). rewrite Hcd in *. cbn [orb] in *. clear Hcd H1.
    revert ts G. induction items as [|f items IH2]; intros ts G; cbn [gen_fields] in *; [apply Some_inj in G; subst; reflexivity|]. inversion IH as [|? ? I1 I2]; subst. cbn [forallb] in H2. apply andb_true_iff in H2 as (H2 & H3).
    destruct (gen_field p false (fst f) (snd f)) as [t1|] eqn:E1; [|discriminate]. destruct (gen_fields p false items) as [t2|] eqn:E2; [|discriminate]. apply Some_inj in G. subst ts.
    rewrite (I1 _ _ H2 E1), (IH2 I2 H3 _ eq_refl). cbn [oapp]. rewrite opt_app. reflexivity.
  Qed.
  Lemma gen_fields_true items ts : forallb (fun f => data_field p rf true (fst f) (snd f)) items = true -> gen_fields p false items = Some ts -> gen_fields p true items = Some (opt_fields ts).
  Proof.
    revert ts. induction items as [|f items IH2]; intros ts H2 G; cbn [gen_fields] in *; [apply Some_inj in G; subst; reflexivity|]. cbn [forallb] in H2. apply andb_true_iff in H2 as (H2 & H3).
    destruct (gen_field p false (fst f) (snd f)) as [t1|] eqn:E1; [|discriminate]. destruct (gen_fields p false items) as [t2|] eqn:E2; [|discriminate]. apply Some_inj in G. subst ts.
    rewrite (gen_true _ _ _ H2 E1), (IH2 _ H3 eq_refl). cbn [oapp]. rewrite opt_app. reflexivity.
  Qed.
  Lemma gen_field_some a t e ts : fa_pad a = false -> fa_cond a = Some e -> data_field p rf false a t = true -> gen_complex a t = Some ts -> gen_field p false a t = Some (opt_fields ts).
  Proof.
    intros Hp Hc H G. unfold gen_complex in G. rewrite Hp in G. destruct t; try (cbn [gen_field]; rewrite Hp, Hc; cbn [orb is_some]; (destruct (type_ref p _); [|discriminate]); apply Some_inj in G; subst; reflexivity).
    rewrite gen_field_cont by exact Hp. cbn [data_field] in H. rewrite Hp in H. apply andb_true_iff in H as (_ & H). rewrite Hc in *. cbn [orb is_some] in *. apply gen_fields_true; assumption.
  Qed.
  Lemma gen_names t : forall c c' a ts, data_field p rf c' a t = true -> fa_pad a = false -> gen_field p c a t = Some ts -> leaf_names (flatten_field (a, t)) = map fst ts.
  Proof.
    unfold flatten_field. cbn [snd].
    induction t as [e| | | |d|d|n|n args|el lc IH|len tg items IH] using ty_ind'; intros c c' a ts H Hp G;
      try (cbn [is_cont gen_field] in *; rewrite Hp in *; (destruct (type_ref p _); [|discriminate]); apply Some_inj in G; subst; unfold leaf_names, leaf; cbn [filter map fst snd is_cont]; rewrite Hp; reflexivity).
    cbn [is_cont]. rewrite flatten_ty_cont. rewrite gen_field_cont in G by exact Hp. cbn [data_field] in H. rewrite Hp in H. apply andb_true_iff in H as (_ & H). revert H G. generalize (c || is_some (fa_cond a)) (c' || is_some (fa_cond a)). intros c1 c2 H G. clear Hp.
    revert ts G. induction items as [|[a0 t0] items IH2]; intros ts G; cbn [gen_fields] in *; [apply Some_inj in G; subst; reflexivity|]. inversion IH as [|? ? I1 I2]; subst. cbn [forallb fst snd] in *. apply andb_true_iff in H as (H & H3).
    destruct (gen_field p c1 a0 t0) as [t1|] eqn:E1; [|discriminate]. destruct (gen_fields p c1 items) as [t2|] eqn:E2; [|discriminate]. apply Some_inj in G. subst ts.
    unfold flatten_items in *. cbn [flat_map]. unfold leaf_names in *. rewrite filter_app, !map_app. rewrite (IH2 I2 H3 _ eq_refl). f_equal. unfold flatten_field. cbn [snd].
    destruct (fa_pad a0) eqn:Hp0; [|eapply I1; eassumption]. assert (is_cont t0 = false) as Q by (destruct t0; cbn [data_field] in H; rewrite Hp0 in H; cbn in H; first [reflexivity|discriminate]). rewrite Q.
    assert (t1 = []) as -> by (destruct t0; cbn [gen_field] in E1; rewrite Hp0 in E1; congruence). cbn [filter]. unfold leaf. cbn [fst snd]. rewrite Hp0. reflexivity.
  Qed.

  Definition typed_item (f : fattr * ty) : Prop := exists ts, gen_field p false (fst f) (snd f) = Some ts /\
    forall en l vs rest, okl l -> sd_field w inp (sd_item w p rf inp rec f) en l = Ok (vs, rest) -> has_fields ts vs.
  Definition typed_complex (a : fattr) (t : ty) : Prop := exists ts, gen_complex a t = Some ts /\
    forall en l vs rest, okl l -> sd_complex w p rf inp rec a t en l = Ok (vs, rest) -> has_fields ts vs.

  Lemma complex_drops t a en : drops false (sd_complex w p rf inp rec a t en).
  Proof. eapply drops_weak. apply (sd_complex_drops w p rf (fun _ => false) (fun _ => false)); assumption. Qed.
  Lemma field_drops f en : drops false (sd_field w inp (sd_item w p rf inp rec f) en).
  Proof. eapply drops_weak. apply (sd_field_drops w Hx inp (fst f) (snd f) (sd_complex w p rf inp rec (fst f) (snd f)) false). intros en0. apply complex_drops. Qed.

  Lemma complex_item a t : data_field p rf false a t = true -> typed_complex a t -> typed_item (a, t).
  Proof.
    intros H (ts & G & T). unfold typed_item, sd_item. cbn [fst snd].
    assert (B : forall en l vs rest, okl l -> sd_xs w inp en (rev (fa_xs a)) (sd_complex w p rf inp rec a t en) l = Ok (vs, rest) -> has_fields ts vs).
    { intros en l vs rest O E. eapply (xs_has en (rev (fa_xs a)) _ (fun vs => has_fields ts vs)); [|exact O|exact E]. intros l0 a0 r0 O0 E0. eapply T; eassumption. }
    destruct (fa_cond a) as [e|] eqn:Hc.
    - destruct (fa_pad a) eqn:Hp.
      + exists []. split; [destruct t; cbn [gen_field]; rewrite Hp; reflexivity|]. unfold gen_complex in G. rewrite Hp in G. apply Some_inj in G. subst ts. intros en l vs rest O E. unfold sd_field in E. rewrite Hc, Hp in E. bi E c Ec. eapply B; eassumption.
      + pose proof (gen_field_some a t e ts Hp Hc H G) as G'. exists (opt_fields ts). split; [exact G'|]. intros en l vs rest O E. unfold sd_field in E. rewrite Hc, Hp in E. bi E c Ec. bi E b Eb. destruct b.
        * bi E x Ex. destruct x as [us r]. apply Ok_inj in E. injection E as <- <-. apply has_fields_wrap. eapply B; eassumption.
        * apply Ok_inj in E. injection E as <- <-. rewrite (gen_names t false false a _ H Hp G'). unfold opt_fields at 2. rewrite map_map. cbn [fst]. apply has_fields_none.
    - exists ts. split; [rewrite gen_field_none by exact Hc; exact G|]. intros en l vs rest O E. unfold sd_field in E. rewrite Hc in E. eapply B; eassumption.
  Qed.
  Lemma items_has items : Forall typed_item items -> exists ts, gen_fields p false items = Some ts /\
    forall en l vs rest, okl l -> sd_items w inp (map (sd_item w p rf inp rec) items) en l = Ok (vs, rest) -> has_fields ts vs.
  Proof.
    induction 1 as [|f items (t1 & G1 & T1) _ (t2 & G2 & T2)].
    - exists []. split; [reflexivity|]. intros en l vs rest O E. cbn in E. apply Ok_inj in E. injection E as <- <-. constructor.
    - exists (t1 ++ t2). cbn [gen_fields]. rewrite G1, G2. split; [reflexivity|]. intros en l vs rest O E. cbn [map sd_items] in E. bi E x Ex. destruct x as [us l1]. bi E y Ey. destruct y as [us' l2]. apply Ok_inj in E. injection E as <- <-.
      apply has_fields_app; [eapply T1; eassumption|]. eapply T2; [|exact Ey]. eapply okl_drops; [apply field_drops|exact Ex|exact O].
  Qed.
  Lemma complex_has : forall t c a, data_field p rf c a t = true -> typed_complex a t.
  Proof.
    assert (P : forall t a, fa_pad a = true -> typed_complex a t).
    { intros t a Hp. exists []. unfold gen_complex. rewrite Hp. split; [reflexivity|]. intros en l vs rest O E. destruct t; cbn [sd_complex] in E; rewrite Hp in E; try discriminate. destruct l0; try discriminate.
      bi E x Ex. bi E n En. bi E y Ey. destruct y as [b r]. apply Ok_inj in E. injection E as <- <-. constructor. }
    assert (L : forall t c a, is_cont t = false -> data_field p rf c a t = true -> typed_complex a t).
    { intros t c a Hc H. destruct (fa_pad a) eqn:Hp; [apply P; exact Hp|]. assert (D : data_ty p rf t = true) by (destruct t; try discriminate; cbn [data_field] in H; rewrite Hp in H; apply andb_true_iff in H as (_ & H); exact H).
      destruct (type_has t D) as (r & T & G). exists [(fa_name a, r)]. split; [unfold gen_complex; rewrite Hp, T; destruct t; try discriminate; reflexivity|]. intros en l vs rest O E.
      rewrite sd_complex_leaf in E by (unfold leaf; cbn [fst snd]; rewrite Hp, Hc; reflexivity). bi E x Ex. destruct x as [v r0]. apply Ok_inj in E. injection E as <- <-. constructor; [eapply G; eassumption|constructor]. }
    assert (W : forall t c a, data_field p rf c a t = true -> data_field p rf false a t = true).
    { clear. induction t as [e| | | |d|d|n|n args|el lc IH|len tg items IH] using ty_ind'; intros c a H; try (cbn [data_field] in *; destruct (fa_pad a); [exact H|]; apply andb_true_iff in H as (_ & H); exact H).
      cbn [data_field] in *. destruct (fa_pad a); [exact H|]. apply andb_true_iff in H as (_ & H). cbn [andb negb orb]. apply forallb_forall. intros f Hf'. rewrite forallb_forall in H. specialize (H _ Hf'). destruct c; cbn [orb] in H; [|exact H].
      rewrite Forall_forall in IH. specialize (IH _ Hf'). destruct (is_some (fa_cond a)); [exact H|]. eapply IH; exact H. }
    induction t as [e| | | |d|d|n|n args|el lc IH|len tg items IH] using ty_ind'; intros c a H; try (eapply L; [reflexivity|eassumption]).
    destruct (fa_pad a) eqn:Hp; [apply P; exact Hp|]. cbn [data_field] in H. rewrite Hp in H. apply andb_true_iff in H as (_ & H).
    destruct (items_has items) as (ts & G & T).
    { apply Forall_forall. intros [a0 t0] Hin. rewrite forallb_forall in H. specialize (H _ Hin). cbn [fst snd] in H. rewrite Forall_forall in IH. specialize (IH _ Hin). cbn [snd] in IH. apply complex_item; [eapply W; exact H|]. eapply IH; exact H. }
    exists ts. unfold gen_complex. rewrite Hp. split; [exact G|]. intros en l vs rest O E. cbn [sd_complex] in E. rewrite Hp in E. destruct tg; [discriminate|].
    eapply (limit_has en len _ (fun vs => has_fields ts vs)); [|exact O|exact E]. intros l0 a0 r0 O0 E0. eapply T; eassumption.
  Qed.
  Lemma all_items items : forallb (fun f => data_field p rf false (fst f) (snd f)) items = true -> Forall typed_item items.
  Proof. intros H. apply Forall_forall. intros [a t] Hin. rewrite forallb_forall in H. specialize (H _ Hin). cbn [fst snd] in H. apply complex_item; [exact H|]. eapply complex_has; exact H. Qed.

  Lemma variants_has name its : forallb (fun f =>
        match snd f with
        | TCont _ _ sub => negb (fa_pad (fst f)) && forallb (fun f => data_field p rf false (fst f) (snd f)) sub
        | t => data_ty p rf t
        end) its = true -> exists vs, gen_variants p its = Some vs /\
    forall l v rest, okl l -> sd_variants w p rf inp rec name its l = Ok (v, rest) ->
      (exists k t x, v = VVariant name k x /\ In (k, inl t) vs /\ has t x) \/ (exists k ts fs, v = VVariantS name k fs /\ In (k, inr ts) vs /\ has_fields ts fs).
  Proof.
    induction its as [|[a t] its IH]; intros H; [exists []; split; [reflexivity|]; intros l v rest O E; discriminate|].
    cbn [forallb fst snd] in H. apply andb_true_iff in H as (H & H2). destruct (IH H2) as (vs & G & T). clear IH.
    destruct (fa_pad a) eqn:Hp; cbn [negb andb] in H.
    - assert (D : data_ty p rf t = true) by (destruct t; try discriminate; exact H). destruct (type_has t D) as (r & Er & _). exists ((fa_name a, inl r) :: vs). split.
      + cbn [gen_variants]. rewrite Er, G. destruct t; try reflexivity. discriminate.
      + intros l v rest O E. cbn [sd_variants] in E. bi E b Eb. destruct b.
        * bi E x Ex. destruct x as [us l1]. assert (us = []) as ->.
          { eapply (xs_has [] (rev (fa_xs a)) _ (fun us => us = [])); [|exact O|exact Ex]. intros l0 a0 r0 O0 E0. destruct t; cbn [sd_complex] in E0; rewrite Hp in E0; try discriminate. destruct l2; try discriminate.
            bi E0 x Ex0. bi E0 n En. bi E0 y Ey. destruct y as [b r']. apply Ok_inj in E0. injection E0 as <- <-. reflexivity. }
          destruct t; cbn [is_cont] in E; try discriminate.
        * destruct (T _ _ _ O E) as [(k & t0 & x & -> & I & X)|(k & ts & fs & -> & I & X)]; [left; exists k, t0, x|right; exists k, ts, fs]; (split; [reflexivity|]; split; [right; exact I|exact X]).
    - assert (S0 : forall len tg sub, t = TCont len tg sub -> exists ts, gen_fields p false sub = Some ts /\ forall l us rest, okl l -> sd_xs w inp [] (rev (fa_xs a)) (sd_complex w p rf inp rec a t []) l = Ok (us, rest) -> has_fields ts us).
      { intros len tg sub ->. destruct (items_has sub (all_items sub H)) as (ts & G' & T'). exists ts. split; [exact G'|]. intros l us rest O E. eapply (xs_has [] (rev (fa_xs a)) _ (fun us => has_fields ts us)); [|exact O|exact E].
        intros l0 a0 r0 O0 E0. cbn [sd_complex] in E0. rewrite Hp in E0. destruct tg; [discriminate|]. eapply (limit_has [] len _ (fun us => has_fields ts us)); [|exact O0|exact E0]. intros l1 a1 r1 O1 E1. eapply T'; eassumption. }
      assert (S1 : is_cont t = false -> exists r, type_ref p t = Some r /\ forall l us rest, okl l -> sd_xs w inp [] (rev (fa_xs a)) (sd_complex w p rf inp rec a t []) l = Ok (us, rest) -> has_fields [(fa_name a, r)] us).
      { intros Hc. assert (D : data_ty p rf t = true) by (destruct t; try discriminate; exact H). destruct (type_has t D) as (r & T' & G'). exists r. split; [exact T'|]. intros l us rest O E. eapply (xs_has [] (rev (fa_xs a)) _ (fun us => has_fields _ us)); [|exact O|exact E].
        intros l0 a0 r0 O0 E0. rewrite sd_complex_leaf in E0 by (unfold leaf; cbn [fst snd]; rewrite Hp, Hc; reflexivity). bi E0 x Ex. destruct x as [u r']. apply Ok_inj in E0. injection E0 as <- <-. constructor; [eapply G'; eassumption|constructor]. }
      destruct (is_cont t) eqn:Hc.
      + destruct t; try discriminate. destruct (S0 _ _ _ eq_refl) as (ts & G' & T'). exists ((fa_name a, inr ts) :: vs). cbn [gen_variants]. rewrite G', G. split; [reflexivity|].
        intros l v rest O E. cbn [sd_variants is_cont] in E. bi E b Eb. destruct b.
        * bi E x Ex. destruct x as [us l1]. apply Ok_inj in E. injection E as <- <-. right. exists (fa_name a), ts, us. split; [reflexivity|]. split; [left; reflexivity|]. eapply T'; eassumption.
        * destruct (T _ _ _ O E) as [(k & t0 & x & -> & I & X)|(k & ts0 & fs & -> & I & X)]; [left; exists k, t0, x|right; exists k, ts0, fs]; (split; [reflexivity|]; split; [right; exact I|exact X]).
      + destruct (S1 eq_refl) as (r & Er & T'). exists ((fa_name a, inl r) :: vs). split; [cbn [gen_variants]; rewrite Er, G; destruct t; try reflexivity; discriminate|].
        intros l v rest O E. cbn [sd_variants] in E. rewrite Hc in E. bi E b Eb. destruct b.
        * bi E x Ex. destruct x as [us l1]. pose proof (T' _ _ _ O Ex) as X. inversion X as [|? ? ? u ? X1 X2]; subst. inversion X2; subst. apply Ok_inj in E. injection E as <- <-. left. exists (fa_name a), r, u. split; [reflexivity|]. split; [left; reflexivity|exact X1].
        * destruct (T _ _ _ O E) as [(k & t0 & x & -> & I & X)|(k & ts & fs & -> & I & X)]; [left; exists k, t0, x|right; exists k, ts, fs]; (split; [reflexivity|]; split; [right; exact I|exact X]).
  Qed.

  Lemma top_has n d : p n = Some d -> foreign_of p n = None ->
    forall l v rest, okl l -> sd_top w p rf inp rec d l = Ok (v, rest) -> has (RTNamed n) v.
  Proof.
    intros Ep Fo l v rest O E. pose proof (Hwf _ _ Ep) as W. unfold data_wf in W. apply andb_true_iff in W as (W & W3). apply andb_true_iff in W as (W1 & W2). apply String.eqb_eq in W1.
    assert (Hc : fa_cond (d_attr d) = None) by (destruct (fa_cond (d_attr d)); [discriminate|reflexivity]).
    unfold sd_top in E. eapply (xs_has [] (rev (fa_xs (d_attr d))) _ (fun v => has (RTNamed n) v)); [|exact O|exact E]. clear l v rest O E. intros l v rest O E. cbv beta in E.
    assert (G : forall t, d_ty d = t -> data_ty p rf t = true -> match t with TForeign _ => False | _ => True end -> (let! (v, l) := sd_type w p rf inp rec [] t l in Ok (VTup v, l)) = Ok (v, rest) -> has (RTNamed n) v).
    { intros t Et D N E'. bi E' x Ex. destruct x as [u r0]. apply Ok_inj in E'. injection E' as <- <-. destruct (type_has t D) as (r & T & G). eapply HTuple; [exact Ep| |eapply G; eassumption].
      unfold data_of. rewrite Et, Hc. destruct t; try discriminate D; try destruct N; cbn [type_ref] in *; rewrite T; reflexivity. }
    destruct (d_ty d) as [e| | | |e|e|f|m args|el lc|len tg items] eqn:Et; try (eapply G; [reflexivity|exact W3|exact I|exact E]).
    - cbn [sd_type] in E. unfold sd_repr in E. bi E x Ex. destruct x as [a r]. bi E u Eu. apply Ok_inj in E. injection E as <- <-. exact (repr_has n d (RpEnum e) a u Ep Et Eu).
    - cbn [sd_type] in E. unfold sd_repr in E. bi E x Ex. destruct x as [a r]. bi E u Eu. apply Ok_inj in E. injection E as <- <-. exact (repr_has n d (RpBits e) a u Ep Et Eu).
    - unfold foreign_of in Fo. rewrite Ep in Fo. destruct d as [da dt dp]. cbn [d_ty] in Et. subst dt. discriminate.
    - destruct tg.
      + destruct (variants_has (fa_name (d_attr d)) items W3) as (vs & G' & T). rewrite W1 in *.
        assert (X : (exists k t x, v = VVariant n k x /\ In (k, inl t) vs /\ has t x) \/ (exists k ts fs, v = VVariantS n k fs /\ In (k, inr ts) vs /\ has_fields ts fs)).
        { exact (limit_has [] len _ (fun v => (exists k t x, v = VVariant n k x /\ In (k, inl t) vs /\ has t x) \/ (exists k ts fs, v = VVariantS n k fs /\ In (k, inr ts) vs /\ has_fields ts fs)) T l v rest O E). }
        destruct X as [(k & t & x & -> & I & X)|(k & ts & fs & -> & I & X)].
        * eapply HVariant; [exact Ep|unfold data_of; rewrite Et, G'; reflexivity|exact I|exact X].
        * eapply HVariantS; [exact Ep|unfold data_of; rewrite Et, G'; reflexivity|exact I|exact X].
      + destruct (items_has items (all_items items W3)) as (ts & G' & T). bi E x Ex. destruct x as [us r]. apply Ok_inj in E. injection E as <- <-. rewrite W1.
        eapply HStruct; [exact Ep|unfold data_of; rewrite Et, G'; reflexivity|]. eapply (limit_has [] len _ (fun us => has_fields ts us)); [|exact O|exact Ex]. intros l0 a0 r0 O0 E0. eapply T; eassumption.
  Qed.
End Typed.

Theorem sdecode_has w p rf (F : string -> val -> Prop) : (forall n vs, drops false (w_fdec w n vs)) -> (forall n vs, drops false (w_xdec w n vs)) ->
  (forall f vs l v rest, okl l -> w_fdec w f vs l = Ok (v, rest) -> F f v) -> (forall x vs l pl rest, okl l -> w_xdec w x vs l = Ok (pl, rest) -> okl pl) ->
  (forall n d, p n = Some d -> data_wf p rf n d = true) ->
  forall k n args l v rest, foreign_of p n = None -> okl l -> sdecode w p rf k n args l = Ok (v, rest) -> has p F (RTNamed n) v.
Proof.
  intros Hf Hx HF HX Hwf. induction k as [|k IH]; intros n args l v rest Fo O E; cbn [sdecode] in E; [discriminate|].
  destruct (p n) as [d|] eqn:Ep; cbn [of_some bind] in E; [|discriminate]. bi E inp Ei.
  eapply (top_has w p rf F Hf Hx HF HX Hwf (fun x => lookup x inp) (sdecode w p rf k)); [| |exact Ep|exact Fo|exact O|exact E].
  - intros m vs. apply (sdecode_drops w p rf (fun _ => false) (fun _ => false)); auto. discriminate.
  - exact IH.
Qed.
