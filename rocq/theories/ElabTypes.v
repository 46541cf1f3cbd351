(** Containers and fields (C43): proofs. *)
From Verif Require Import Base Scalar ConstInt ConstIntFacts Tokens Ast Parse Front Program FrontFacts ElabSpec ElabFacts.
From Coq Require Import Lia.
Open Scope list_scope.

(** ** Program states *)
Notation size p := (List.length (p_store p)).
Record tables (p p' : prog) : Prop := { tb_types : p_types p' = p_types p; tb_consts : p_consts p' = p_consts p;
  tb_xforms : p_xforms p' = p_xforms p; tb_funcs : p_funcs p' = p_funcs p }.
(** [p'] only has more fields. *)
Record ext (p p' : prog) : Prop := { x_tables : tables p p'; x_store : exists l, p_store p' = p_store p ++ l }.
(** Fields equal up to the recursion mark, and up to the calculation too. *)
Definition sim (f f' : field) : Prop := f_name f' = f_name f /\ f_params f' = f_params f /\ f_type f' = f_type f /\ f_cond f' = f_cond f /\ f_xs f' = f_xs f /\
  f_top f' = f_top f /\ f_pad f' = f_pad f.
Definition same (f f' : field) : Prop := sim f f' /\ f_calc f' = f_calc f.
Definition agree (lo hi : nat) (p p' : prog) : Prop := forall i f, (lo <= i < hi)%nat -> fget p i = Some f -> exists f', fget p' i = Some f' /\ same f f'.
Definition agree_mid (ids : list nat) (lo hi : nat) (p p' : prog) : Prop :=
  forall i f, (lo <= i < hi)%nat -> fget p i = Some f -> exists f', fget p' i = Some f' /\ sim f f' /\ (~ In i ids -> same f f').

Lemma tables_refl p : tables p p. Proof. constructor; reflexivity. Qed.
Lemma tables_trans p q r : tables p q -> tables q r -> tables p r. Proof. intros [] []. constructor; congruence. Qed.
Lemma ext_refl p : ext p p. Proof. constructor; [apply tables_refl|exists []; rewrite app_nil_r; reflexivity]. Qed.
Lemma ext_trans p q r : ext p q -> ext q r -> ext p r.
Proof. intros [T [l E]] [T' [l' E']]. constructor; [eapply tables_trans; eassumption|]. exists (l ++ l'). rewrite E', E, app_assoc. reflexivity. Qed.
Lemma ext_fget p p' i f : ext p p' -> fget p i = Some f -> fget p' i = Some f.
Proof. intros [_ [l E]] H. unfold fget in *. rewrite E. rewrite nth_error_app1; [exact H|]. apply nth_error_Some. congruence. Qed.
Lemma ext_size p p' : ext p p' -> (size p <= size p')%nat.
Proof. intros [_ [l E]]. rewrite E, app_length. lia. Qed.
Lemma ext_grow p p' : ext p p' -> grow p p'.
Proof. intros X. pose proof X as [[A B C D] _]. constructor; intros; rewrite ?A, ?B, ?C, ?D; try assumption. exists f. split; [eapply ext_fget; eassumption|reflexivity]. Qed.
Lemma fget_size p i f : fget p i = Some f -> (i < size p)%nat.
Proof. intros H. apply nth_error_Some. unfold fget in H. congruence. Qed.
Lemma fget_ext p p' i f : ext p p' -> (i < size p)%nat -> fget p' i = Some f -> fget p i = Some f.
Proof. intros [_ [l E]] L H. unfold fget in *. rewrite E, nth_error_app1 in H; assumption. Qed.
Lemma same_refl f : same f f. Proof. repeat split. Qed.
Lemma sim_refl f : sim f f. Proof. repeat split. Qed.
Lemma sim_trans f g h : sim f g -> sim g h -> sim f h. Proof. intros (?&?&?&?&?&?&?) (?&?&?&?&?&?&?). repeat split; congruence. Qed.
Lemma same_trans f g h : same f g -> same g h -> same f h. Proof. intros [A B] [A' B']. split; [eapply sim_trans; eassumption|congruence]. Qed.
Lemma st_add_ext p f : ext p (st_add p f). Proof. constructor; [constructor; reflexivity|exists [f]; reflexivity]. Qed.
Lemma st_add_size p f : size (st_add p f) = S (size p). Proof. cbn [st_add p_store]. rewrite app_length. cbn. lia. Qed.
Lemma st_add_get p f : fget (st_add p f) (size p) = Some f.
Proof. unfold fget. cbn [st_add p_store]. rewrite nth_error_app2, Nat.sub_diag; [reflexivity|lia]. Qed.
Lemma st_set_same p i g f : fget p i = Some f -> fget (st_set p i g) i = Some (g f).
Proof. unfold fget. cbn [st_set p_store]. apply upd_same. Qed.
Lemma st_set_other p i j g : i <> j -> fget (st_set p i g) j = fget p j.
Proof. unfold fget. cbn [st_set p_store]. apply upd_other. Qed.
Lemma st_set_size p i g : size (st_set p i g) = size p. Proof. apply upd_length. Qed.
Lemma st_set_tables p i g : tables p (st_set p i g). Proof. constructor; reflexivity. Qed.
Lemma upd_app {A} (l r : list A) i f : (List.length l <= i)%nat -> upd (l ++ r) i f = l ++ upd r (i - List.length l) f.
Proof.
  revert i. induction l as [|x l IH]; intros i L; cbn; [rewrite Nat.sub_0_r; reflexivity|]. destruct i as [|i]; [cbn in L; lia|]. cbn. rewrite IH by (cbn in L; lia). reflexivity.
Qed.
Lemma st_set_ext p p' i g : ext p p' -> (size p <= i)%nat -> ext p (st_set p' i g).
Proof. intros [T [l E]] L. constructor; [exact (tables_trans _ _ _ T (st_set_tables p' i g))|]. exists (upd l (i - size p) g). cbn [st_set p_store]. rewrite E. apply upd_app. exact L. Qed.
Lemma st_set_grow p i g : (forall f, fget p i = Some f -> is_enum (f_type f) -> f_type (g f) = f_type f) -> grow p (st_set p i g).
Proof.
  intros H. constructor; auto. intros j f E U. destruct (Nat.eq_dec i j) as [<-|N]; [|exists f; rewrite st_set_other by exact N; auto].
  exists (g f). split; [apply st_set_same; exact E|]. auto.
Qed.
Lemma st_calc_grow p i c : grow p (st_set p i (set_calc c)). Proof. apply st_set_grow. reflexivity. Qed.

(** ** Items, without their calculations *)
Section Mid.
  Variables (n : nat) (p : prog).
  Inductive imid (F : list (name * nat)) (I : list (name * fty)) : list (name * nat) -> nat -> list aitem -> list (name * nat) -> Prop :=
  | n_nil before k : imid F I before k [] []
  | n_field before k x t calc cond xs l i fd l' : fget p i = Some fd -> f_name fd = x -> f_params fd = [] -> f_top fd = false -> f_pad fd = false ->
      elab n p (before ++ F) I None t (f_type fd) -> opt_rel (mirror n p (before ++ F) I) cond (f_cond fd) ->
      Forall2 (xform_rel n p (before ++ F) I) xs (f_xs fd) ->
      imid F I ((x, i) :: before) k l l' ->
      imid F I before k (IField x (AField t calc [] cond xs) :: l) ((x, i) :: l')
  | n_pad before k e l i fd len l' : fget p i = Some fd -> f_pad fd = true -> f_type fd = FArr (FScalar (be U8)) false (Some len) ->
      f_calc fd = None -> f_cond fd = None -> f_xs fd = [] -> f_params fd = [] -> f_name fd = pad_name k ->
      mirror n p (before ++ F) I e len -> imid F I before (S k) l l' -> imid F I before k (IPad e :: l) ((pad_name k, i) :: l').
End Mid.
Fixpoint ends_of (items : list aitem) (its : list (name * nat)) : list (nat * option aexpr) :=
  match items, its with
  | IField _ f :: items, b :: its => (snd b, calc_of f) :: ends_of items its
  | IPad _ :: items, _ :: its => ends_of items its
  | _, _ => []
  end.
Lemma imid_elab n p F I all before k items its : imid n p F I before k items its ->
  (forall i calc f, In (i, calc) (ends_of items its) -> fget p i = Some f -> opt_rel (mirror n p (all ++ F) I) calc (f_calc f)) ->
  items_elab n p F I all before k items its.
Proof.
  induction 1 as [| before k x t calc cond xs l i fd l' E1 E2 E3 E4 E5 El Ec Ex _ IH| before k e l i fd len l' E1 E2 E3 E4 E5 E6 E7 E8 M _ IH]; intros H.
  - constructor.
  - econstructor; try eassumption; [|apply IH; intros; eapply H; [right; eassumption|assumption]]. eapply H; [left; reflexivity|exact E1].
  - econstructor; try eassumption. apply IH. intros. eapply H; eassumption.
Qed.
Lemma ends_ids items : forall its, map fst (ends_of items its) = map snd (fields_of items its).
Proof. induction items as [|[e|x f] items IH]; intros [|b its]; cbn; try reflexivity; [apply IH|]. rewrite IH. reflexivity. Qed.
Lemma fields_incl items : forall its b, In b (fields_of items its) -> In b its.
Proof. induction items as [|[e|x f] items IH]; intros [|b its] c H; cbn in *; try tauto; [right; apply IH; exact H|]. destruct H as [<-|H]; [left; reflexivity|right; apply IH; exact H]. Qed.

(** ** Pad names *)
Lemma pad_name_inj a b : pad_name a = pad_name b -> a = b.
Proof.
  unfold pad_name. intros H. apply app_inv_head in H.
  unfold dec_string in H. apply (f_equal (map (fun d => (d - 48)%Z))) in H. rewrite !map_map in H.
  assert (Q : forall l, map (fun x => (x + 48 - 48)%Z) l = l) by (intros l; rewrite <- (map_id l) at 2; apply map_ext; intros; lia). rewrite !Q in H.
  assert (D : forall k, positional 10 (dec_digits (S (Z.to_nat (Z.log2 (Z.of_nat k)))) (Z.of_nat k)) = Z.of_nat k).
  { intros k. apply dec_digits_spec. split; [lia|].
    destruct k as [|k]; [cbn; lia|]. pose proof (Z.log2_spec (Z.of_nat (S k)) ltac:(lia)) as [_ L]. eapply Z.lt_le_trans; [exact L|].
    rewrite (Nat2Z.inj_succ (Z.to_nat _)), Z2Nat.id by apply Z.log2_nonneg. apply Z.pow_le_mono_l. lia. }
  apply Nat2Z.inj. rewrite <- (D a), <- (D b), H. reflexivity.
Qed.

(** ** Calculations *)
Section Conv.
  Variables (en : env) (n : nat).

  Lemma cend_spec sc calc i p p' : cend en n sc calc i p = Ok p' -> exists f c, fget p i = Some f /\ p' = st_set p i (set_calc c) /\
    forall F I p'', scoped sc F I -> grow p p'' -> opt_rel (mirror n p'' F I) calc c.
  Proof.
    unfold cend. destruct (fget p i) as [f|]; [|discriminate]. destruct calc as [e|].
    - destruct (into_partial n p (f_type f)) as [x| | |]; cbn [bind]; try discriminate. destruct (cexpr en n p sc e x) as [e'| | |] eqn:E; cbn [bind]; try discriminate.
      intros H. apply Ok_inj in H. exists f, (Some e'). split; [reflexivity|]. split; [congruence|]. intros F I p'' S G. eapply cexpr_mirror; eassumption.
    - intros H. apply Ok_inj in H. exists f, None. split; [reflexivity|]. split; [congruence|]. intros. exact Logic.I.
  Qed.
  Lemma cends_spec sc : forall l p p', cends en n sc l p = Ok p' -> NoDup (map fst l) ->
    tables p p' /\ size p' = size p /\ grow p p' /\ (forall j, ~ In j (map fst l) -> fget p' j = fget p j) /\
    forall i calc, In (i, calc) l -> exists f c, fget p i = Some f /\ fget p' i = Some (set_calc c f) /\
      forall F I p'', scoped sc F I -> grow p' p'' -> opt_rel (mirror n p'' F I) calc c.
  Proof.
    induction l as [|[i calc] l IH]; intros p p' H N.
    - apply Ok_inj in H. subst. split; [apply tables_refl|]. split; [reflexivity|]. split; [apply grow_refl|]. split; [reflexivity|]. intros ? ? [].
    - cbn [cends] in H. destruct (cend en n sc calc i p) as [p1| | |] eqn:E; cbn [bind] in H; try discriminate H. apply cend_spec in E as (f & c & Ef & -> & K).
      inversion N as [|? ? Ni N']; subst. destruct (IH _ _ H N') as (T & S & G & O & M). clear IH H. split; [eapply tables_trans; [apply st_set_tables|exact T]|].
      split; [rewrite S; apply st_set_size|]. assert (G1 : grow p p') by (eapply grow_trans; [apply st_calc_grow|exact G]). split; [exact G1|].
      split. { intros j Hj. cbn [map fst] in Hj. rewrite O by (intros X; apply Hj; right; exact X). apply st_set_other. intros ->. apply Hj. left. reflexivity. }
      intros j calc' [J|J].
      + injection J as <- <-. exists f, c. split; [exact Ef|]. split; [rewrite O by exact Ni; apply st_set_same; exact Ef|]. intros F I p'' Hs Hg. apply K; [exact Hs|eapply grow_trans; eassumption].
      + destruct (M j calc' J) as (g & c' & Eg & Eg' & Mg). exists g, c'. split; [|split; assumption]. rewrite st_set_other in Eg; [exact Eg|].
        intros ->. apply Ni. apply (in_map fst) in J. exact J.
  Qed.

  (** ** Enums and flags *)
  Lemma cenum_spec sc rep p p'' F I : scoped sc F I -> grow p p'' -> forall items last k dflt acc out,
    cenum en n p sc rep items last k dflt acc = Ok out -> (dflt = true -> items = []) /\ NoDup (map fst items) /\ (forall x, In x (map fst items) -> mget x acc = None) /\
      exists its, out = acc ++ its /\ enum_items n p'' F I rep last k items its.
  Proof.
    intros Hs Hg. induction items as [|[x v] items IH]; intros last k dflt acc out H.
    - apply Ok_inj in H. subst. split; [reflexivity|]. split; [constructor|]. split; [intros ? []|]. exists []. rewrite app_nil_r. split; [reflexivity|constructor].
    - cbn [cenum] in H. destruct (mget x acc) eqn:M; [discriminate H|]. destruct dflt; [discriminate H|]. split; [discriminate|].
      assert (Step : forall last' k' d' val (its' : list (name * option fexpr) -> Prop), cenum en n p sc rep items last' k' d' (mput x val acc) = Ok out -> 
        (forall its, enum_items n p'' F I rep last' k' items its -> its' its) ->
        NoDup (map fst ((x, v) :: items)) /\ (forall y, In y (map fst ((x, v) :: items)) -> mget y acc = None) /\ (d' = true -> items = []) /\
        exists its, out = acc ++ (x, val) :: its /\ its' its).
      { intros last' k' d' val its' H1 K. apply IH in H1 as (D & ND & Fr & its & -> & L). rewrite mput_new in * by exact M. cbn [map fst].
        assert (Fr' : forall y, In y (map fst items) -> y <> x /\ mget y acc = None).
        { intros y Hy. apply Fr in Hy. rewrite mget_app in Hy. destruct (mget y acc) eqn:Ey; [discriminate|]. cbn in Hy. split; [|reflexivity]. intros ->. rewrite name_eqb_refl in Hy. discriminate. }
        split; [constructor; [intros Hx; apply Fr' in Hx as [Hx _]; congruence|exact ND]|]. split; [intros y [<-|Hy]; [exact M|apply Fr'; exact Hy]|]. split; [exact D|].
        exists its. rewrite <- app_assoc. cbn. split; [reflexivity|apply K; exact L]. }
      destruct v as [| |e].
      + destruct last as [[lx le]|]; [|discriminate H]. destruct (ci_parse (es_scalar rep) (dec_string (Z.of_nat k))) as [c|] eqn:C; [|discriminate H].
        apply (Step _ _ _ _ (fun its => enum_items n p'' F I rep (Some (lx, le)) k ((x, VNone) :: items) ((x, Some (FBin BAdd (FConst lx (FScalar rep) le) (FInt c))) :: its))) in H; [|intros; constructor; assumption].
        destruct H as (A & B & _ & its & O & L). split; [exact A|]. split; [exact B|]. eexists. split; [exact O|exact L].
      + apply (Step _ _ _ _ (fun its => enum_items n p'' F I rep last (S k) items its)) in H; [|intros; assumption].
        destruct H as (A & B & D & its & O & L). split; [exact A|]. split; [exact B|]. eexists. split; [exact O|]. rewrite (D eq_refl) in L |- *. inversion L; subst. constructor.
      + destruct (cexpr en n p sc e _) as [e'| | |] eqn:E; cbn [bind] in H; try discriminate H.
        apply (Step _ _ _ _ (fun its => enum_items n p'' F I rep last k ((x, VExpr e) :: items) ((x, Some e') :: its))) in H; [|intros; constructor; [eapply cexpr_mirror; eassumption|assumption]].
        destruct H as (A & B & _ & its & O & L). split; [exact A|]. split; [exact B|]. eexists. split; [exact O|exact L].
  Qed.
  Lemma cbits_spec sc rep p p'' F I : scoped sc F I -> grow p p'' -> forall items last k acc out,
    cbits en n p sc rep items last k acc = Ok out -> NoDup (map fst items) /\ (forall x, In x (map fst items) -> mget x acc = None) /\
      exists its, out = acc ++ its /\ bits_items n p'' F I rep last k items its.
  Proof.
    intros Hs Hg. induction items as [|[x v] items IH]; intros last k acc out H.
    - apply Ok_inj in H. subst. split; [constructor|]. split; [intros ? []|]. exists []. rewrite app_nil_r. split; [reflexivity|constructor].
    - cbn [cbits] in H. destruct (mget x acc) eqn:M; [discriminate H|].
      assert (Step : forall last' k' val (its' : list (name * fexpr) -> Prop), cbits en n p sc rep items last' k' (mput x val acc) = Ok out -> 
        (forall its, bits_items n p'' F I rep last' k' items its -> its' its) ->
        NoDup (map fst ((x, v) :: items)) /\ (forall y, In y (map fst ((x, v) :: items)) -> mget y acc = None) /\
        exists its, out = acc ++ (x, val) :: its /\ its' its).
      { intros last' k' val its' H1 K. apply IH in H1 as (ND & Fr & its & -> & L). rewrite mput_new in * by exact M. cbn [map fst].
        assert (Fr' : forall y, In y (map fst items) -> y <> x /\ mget y acc = None).
        { intros y Hy. apply Fr in Hy. rewrite mget_app in Hy. destruct (mget y acc) eqn:Ey; [discriminate|]. cbn in Hy. split; [|reflexivity]. intros ->. rewrite name_eqb_refl in Hy. discriminate. }
        split; [constructor; [intros Hx; apply Fr' in Hx as [Hx _]; congruence|exact ND]|]. split; [intros y [<-|Hy]; [exact M|apply Fr'; exact Hy]|].
        exists its. rewrite <- app_assoc. cbn. split; [reflexivity|apply K; exact L]. }
      destruct v as [e|].
      + destruct (cexpr en n p sc e _) as [e'| | |] eqn:E; cbn [bind] in H; try discriminate H.
        apply (Step _ _ _ (fun its => bits_items n p'' F I rep last k ((x, Some e) :: items) ((x, e') :: its))) in H; [|intros; constructor; [eapply cexpr_mirror; eassumption|assumption]].
        destruct H as (A & B & its & O & L). split; [exact A|]. split; [exact B|]. eexists. split; [exact O|exact L].
      + destruct last as [[lx le]|]; [|discriminate H]. destruct (ci_parse (es_scalar rep) (dec_string (Z.of_nat k))) as [c|] eqn:C; [|discriminate H].
        apply (Step _ _ _ (fun its => bits_items n p'' F I rep (Some (lx, le)) k ((x, None) :: items) ((x, FBin BShl (FConst lx (FScalar rep) le) (FInt c)) :: its))) in H; [|intros; constructor; assumption].
        destruct H as (A & B & its & O & L). split; [exact A|]. split; [exact B|]. eexists. split; [exact O|exact L].
  Qed.

  (** ** Containers *)
  Definition citems (sc : scope) (tagged : bool) := fix go (l : list aitem) (s : cst) {struct l} : R cst :=
    let sc' := {| fr_fields := cs_fields s; fr_inputs := [] |} :: sc in
    match l with
    | [] => Ok s
    | IField x f :: l =>
        match mget x (cs_items s) with
        | Some _ => Err (XFieldRedef x)
        | None =>
            let i := List.length (p_store (cs_prog s)) in
            let! p1 := cmid en n (frame0 :: sc') f ForField i (st_add (cs_prog s) (placeholder x false)) in
            if cs_uncond s && tagged then Err XAfterUnconditional else
            go l {| cs_prog := p1; cs_items := mput x i (cs_items s); cs_fields := mput x i (cs_fields s);
                    cs_ends := cs_ends s ++ [(i, calc_of f)];
                    cs_uncond := cs_uncond s || match cond_of f with None => true | Some _ => false end; cs_pads := cs_pads s |}
        end
    | IPad e :: l =>
        if tagged then Err XEnumPad else
        let x := pad_name (cs_pads s) in
        let! len := cexpr en n (cs_prog s) sc' e (PScalar (PSome U64)) in
        let i := List.length (p_store (cs_prog s)) in
        go l {| cs_prog := st_add (cs_prog s) (pad_field x len); cs_items := mput x i (cs_items s); cs_fields := cs_fields s;
                cs_ends := cs_ends s; cs_uncond := cs_uncond s; cs_pads := S (cs_pads s) |}
    end.
  Lemma citems_field sc tagged x f l s : citems sc tagged (IField x f :: l) s =
    match mget x (cs_items s) with
    | Some _ => Err (XFieldRedef x)
    | None =>
        let i := List.length (p_store (cs_prog s)) in
        let! p1 := cmid en n (frame0 :: {| fr_fields := cs_fields s; fr_inputs := [] |} :: sc) f ForField i (st_add (cs_prog s) (placeholder x false)) in
        if cs_uncond s && tagged then Err XAfterUnconditional else
        citems sc tagged l {| cs_prog := p1; cs_items := mput x i (cs_items s); cs_fields := mput x i (cs_fields s);
                cs_ends := cs_ends s ++ [(i, calc_of f)];
                cs_uncond := cs_uncond s || match cond_of f with None => true | Some _ => false end; cs_pads := cs_pads s |}
    end.
  Proof. reflexivity. Qed.
  Lemma citems_pad sc tagged e l s : citems sc tagged (IPad e :: l) s =
    if tagged then Err XEnumPad else
    let x := pad_name (cs_pads s) in
    let! len := cexpr en n (cs_prog s) ({| fr_fields := cs_fields s; fr_inputs := [] |} :: sc) e (PScalar (PSome U64)) in
    let i := List.length (p_store (cs_prog s)) in
    citems sc tagged l {| cs_prog := st_add (cs_prog s) (pad_field x len); cs_items := mput x i (cs_items s); cs_fields := cs_fields s;
            cs_ends := cs_ends s; cs_uncond := cs_uncond s; cs_pads := S (cs_pads s) |}.
  Proof. reflexivity. Qed.
  Lemma ctype_cont sc len flags items u p : ctype en n sc (YCont len flags items) u p =
    match u with
    | ForArray => Err XInline
    | _ =>
        let! len' := copt en n p sc len (PScalar (PDefaults U64)) in
        let! tagged := cflags flags false in
        if tagged && negb (match u with ForType _ => true | _ => false end) then Err XToplevel else
        let! s := citems sc tagged items {| cs_prog := p; cs_items := []; cs_fields := []; cs_ends := []; cs_uncond := false; cs_pads := 0 |} in
        let! p2 := cends en n (frame0 :: {| fr_fields := cs_fields s; fr_inputs := [] |} :: sc) (cs_ends s) (cs_prog s) in
        Ok (FCont len' (cs_items s) tagged, p2)
    end.
  Proof. destruct u; reflexivity. Qed.
  Lemma cmid_eq sc t calc flags cond xs u i p : cmid en n sc (AField t calc flags cond xs) u i p =
    let! r := ctype en n sc t u p in
    let (t', p1) := r : fty * prog in
    let! cond' := copt en n p1 sc cond (PType FBool) in
    let! xs' := cxforms en n p1 sc xs in
    match flags with
    | x :: _ => Err (XFlag x)
    | [] => Ok (st_set p1 i (set_mid t' cond' xs'))
    end.
  Proof. reflexivity. Qed.
  Lemma cflags_spec l : forall b r, cflags l b = Ok r -> Forall (fun x => x = bs "tagged_enum") l /\ (r = true <-> b = true \/ l <> []).
  Proof.
    induction l as [|x l IH]; intros b r H; cbn [cflags] in H.
    - apply Ok_inj in H. subst. split; [constructor|]. split; [auto|]. intros [H|H]; congruence.
    - destruct (name_eqb x bs_tagged) eqn:E; [|discriminate H]. apply name_eqb_eq in E. apply IH in H as [A B]. split; [constructor; assumption|].
      rewrite B. split; [intros _; right; discriminate|intros _; left; reflexivity].
  Qed.

  Definition top_of (u : purpose) : option name := match u with ForType x => Some x | _ => None end.
  Definition Pt (t : atype) : Prop := forall sc u p t' p', ctype en n sc t u p = Ok (t', p') -> clean_type t -> ext p p' /\
    forall F I p'', scoped sc F I -> grow p' p'' -> agree (size p) (size p') p' p'' -> elab n p'' F I (top_of u) t t'.
  Definition body_rel (p : prog) (F : list (name * nat)) (I : list (name * fty)) (top : option name) (f : afield) (t' : fty) (c : option fexpr) (us : list xuse) : Prop :=
    match f with AField t _ flags cond xs => flags = [] /\ elab n p F I top t t' /\ opt_rel (mirror n p F I) cond c /\ Forall2 (xform_rel n p F I) xs us end.
  Definition Pf (f : afield) : Prop := forall sc u i p p', cmid en n sc f u i p = Ok p' -> clean_field f -> exists t' c us p1,
    p' = st_set p1 i (set_mid t' c us) /\ ext p p1 /\
    forall F I p'', scoped sc F I -> grow p1 p'' -> agree (size p) (size p1) p1 p'' -> body_rel p'' F I (top_of u) f t' c us.

  Lemma field_case t calc flags cond xs : Pt t -> Pf (AField t calc flags cond xs).
  Proof.
    intros Ht sc u i p p' H C. rewrite cmid_eq in H. destruct (ctype en n sc t u p) as [[t' p1]| | |] eqn:Et; cbn [bind] in H; try discriminate H.
    destruct (copt en n p1 sc cond _) as [c| | |] eqn:Ec; cbn [bind] in H; try discriminate H. destruct (cxforms en n p1 sc xs) as [us| | |] eqn:Ex; cbn [bind] in H; try discriminate H.
    destruct flags; [|discriminate H]. apply Ok_inj in H. subst p'. destruct (Ht _ _ _ _ _ Et C) as [X K]. exists t', c, us, p1. split; [reflexivity|]. split; [exact X|].
    intros F I p'' Hs Hg Ha. split; [reflexivity|]. split; [apply K; assumption|]. split; [eapply copt_rel; eassumption|eapply cxforms_rel; eassumption].
  Qed.

  (** The item names so far are distinct; those of pads are numbered below the counter. *)
  Record inv (s : cst) : Prop := { v_nodup : NoDup (map fst (cs_items s)); v_pads : forall k, In (pad_name k) (map fst (cs_items s)) -> (k < cs_pads s)%nat;
    v_fields : forall x, mget x (cs_items s) = None -> mget x (cs_fields s) = None }.
  Definition clean_items (l : list aitem) : Prop := Forall (fun i => match i with IField x f => (forall k, x <> pad_name k) /\ clean_field f | IPad _ => True end) l.
  Lemma clean_cont len flags items : clean_type (YCont len flags items) <-> clean_items items.
  Proof.
    unfold clean_items. cbn [clean_type]. induction items as [|[e|x f] items IH]; [split; [constructor|intros _; exact Logic.I]| |].
    - split; [intros H; constructor; [exact Logic.I|apply IH; exact H]|inversion 1; subst; apply IH; assumption].
    - split; [intros (A & B & C); constructor; [auto|apply IH; exact C]|]. intros H. inversion H as [|? ? HH C]; subst. destruct HH as [A B]. split; [exact A|]. split; [exact B|apply IH; exact C].
  Qed.
  Definition tag_ok (u : bool) (l : list aitem) : Prop := Forall (fun i => is_pad i = false) l /\ (u = true -> l = []) /\ forall l1 i r, l = l1 ++ i :: r -> unconditional i = true -> r = [].

  Lemma citems_spec sc tagged l : Forall (item_all (fun _ => True) Pf) l -> forall s s', citems sc tagged l s = Ok s' -> clean_items l -> inv s ->
    exists its, cs_items s' = cs_items s ++ its /\ cs_fields s' = cs_fields s ++ fields_of l its /\ cs_ends s' = cs_ends s ++ ends_of l its /\
      ext (cs_prog s) (cs_prog s') /\ inv s' /\ Forall (fun b => (size (cs_prog s) <= snd b < size (cs_prog s'))%nat) its /\ NoDup (map snd its) /\
      (tagged = true -> tag_ok (cs_uncond s) l) /\
      forall F I p'' before, scoped sc F I -> (forall x, mget x before = mget x (cs_fields s)) -> grow (cs_prog s') p'' ->
        agree_mid (map snd (fields_of l its)) (size (cs_prog s)) (size (cs_prog s')) (cs_prog s') p'' -> imid n p'' F I before (cs_pads s) l its.
  Proof.
    induction 1 as [|it l Hi _ IH]; intros s s' H Cl V.
    - apply Ok_inj in H. subst s'. exists []. rewrite !app_nil_r. split; [reflexivity|]. split; [reflexivity|]. split; [reflexivity|]. split; [apply ext_refl|]. split; [exact V|].
      split; [constructor|]. split; [constructor|]. split; [|intros; constructor]. intros _. split; [constructor|]. split; [reflexivity|]. intros [|? ?] ? ? E; discriminate E.
    - inversion Cl as [|? ? Ci Cl']; subst. destruct it as [e|x f]; [rewrite citems_pad in H|rewrite citems_field in H]; cbv zeta in H.
      + (* pad *)
        destruct tagged eqn:Tg; [discriminate H|]. rewrite <- Tg in *. destruct (cexpr en n (cs_prog s) _ e _) as [len| | |] eqn:Ee; cbn [bind] in H; try discriminate H.
        set (i := size (cs_prog s)) in *. set (x := pad_name (cs_pads s)) in *.
        assert (Nx : mget x (cs_items s) = None). { apply mget_none. intros Hx. apply (v_pads _ V) in Hx. lia. }
        rewrite mput_new in H by exact Nx.
        destruct (IH _ _ H Cl') as (its & A1 & A2 & A3 & A4 & A5 & A6 & A7 & A8 & A9); clear IH H.
        { constructor; cbn [cs_items cs_pads cs_fields].
          - rewrite <- (mput_new x i) by exact Nx. apply mput_nodup. apply V.
          - intros k. rewrite map_app, in_app_iff. cbn. intros [Hk|[Hk|[]]]; [apply (v_pads _ V) in Hk; lia|]. apply pad_name_inj in Hk. lia.
          - intros y. rewrite mget_app. destruct (mget y (cs_items s)) eqn:Ey; [discriminate|]. intros _. apply (v_fields _ V). exact Ey. }
        cbn [cs_items cs_fields cs_ends cs_prog cs_uncond cs_pads] in *. rewrite st_add_size in A6. exists ((x, i) :: its).
        pose proof (ext_size _ _ A4) as Sz. rewrite st_add_size in Sz. fold i in Sz.
        split; [rewrite A1, <- app_assoc; reflexivity|]. split; [exact A2|]. split; [exact A3|]. split; [eapply ext_trans; [apply st_add_ext|exact A4]|]. split; [exact A5|].
        split; [constructor; [cbn; lia|]; eapply Forall_impl; [|exact A6]; intros b Hb; cbn beta in Hb; lia|].
        split; [cbn; constructor; [|exact A7]; intros Hin; apply in_map_iff in Hin as (b & Eb & Ib); rewrite Forall_forall in A6; apply A6 in Ib; lia|]. split; [congruence|].
        intros F I p'' before Hs Hb Hg Ha. cbn [fields_of] in Ha.
        assert (Ei : fget (cs_prog s') i = Some (pad_field x len)) by (eapply ext_fget; [exact A4|]; apply st_add_get).
        destruct (Ha i _ ltac:(fold i; lia) Ei) as (fd & Ef & Sm & Sa). destruct Sa as [_ Calc].
        { intros Hin. apply in_map_iff in Hin as (b & Eb & Ib). apply fields_incl in Ib. rewrite Forall_forall in A6. apply A6 in Ib. lia. }
        destruct Sm as (S1 & S2 & S3 & S4 & S5 & S6 & S7). cbn in S1, S2, S3, S4, S5, S6, S7, Calc.
        eapply n_pad; try eassumption.
        * eapply cexpr_mirror; [|eapply grow_trans; [apply ext_grow, st_add_ext|eapply grow_trans; [apply ext_grow; exact A4|exact Hg]]|exact Ee].
          intros y. specialize (scoped_fields _ _ _ (cs_fields s) Hs y) as [-> ->]. rewrite !mget_app, Hb. split; reflexivity.
        * apply A9; try assumption. intros j fj Lj Ej. rewrite st_add_size in Lj. apply Ha; [lia|exact Ej].
      + (* field *)
        destruct Ci as [Np Cf]. destruct (mget x (cs_items s)) eqn:Nx; [discriminate H|].
        destruct (cmid en n _ f ForField _ _) as [p2| | |] eqn:Em; cbn [bind] in H; try discriminate H.
        destruct (cs_uncond s && tagged) eqn:Un; [discriminate H|]. set (i := size (cs_prog s)) in *. cbn [item_all] in Hi.
        destruct (Hi _ _ _ _ _ Em Cf) as (t' & c & us & p1 & -> & X1 & K1). clear Hi Em.
        pose proof (v_fields _ V x Nx) as Nf. rewrite !mput_new in H by assumption.
        destruct (IH _ _ H Cl') as (its & A1 & A2 & A3 & A4 & A5 & A6 & A7 & A8 & A9); clear IH H.
        { constructor; cbn [cs_items cs_pads cs_fields].
          - rewrite <- (mput_new x i) by exact Nx. apply mput_nodup. apply V.
          - intros k. rewrite map_app, in_app_iff. cbn. intros [Hk|[Hk|[]]]; [apply (v_pads _ V) in Hk; lia|]. exfalso. eapply Np. exact Hk.
          - intros y. rewrite !mget_app. destruct (mget y (cs_items s)) eqn:Ey; [discriminate|]. rewrite (v_fields _ V y Ey). auto. }
        cbn [cs_items cs_fields cs_ends cs_prog cs_uncond cs_pads] in *. rewrite st_set_size in A6. exists ((x, i) :: its).
        pose proof (ext_size _ _ A4) as Sz. rewrite st_set_size in Sz. pose proof (ext_size _ _ X1) as Sz1. rewrite st_add_size in Sz1. fold i in Sz1.
        split; [rewrite A1, <- app_assoc; reflexivity|]. split; [rewrite A2, <- app_assoc; reflexivity|]. split; [rewrite A3, <- app_assoc; reflexivity|].
        split; [eapply ext_trans; [eapply st_set_ext; [eapply ext_trans; [apply st_add_ext|exact X1]|apply le_n]|exact A4]|]. split; [exact A5|].
        split; [constructor; [cbn; lia|]; eapply Forall_impl; [|exact A6]; intros b Hb; cbn beta in Hb; lia|].
        split; [cbn; constructor; [|exact A7]; intros Hin; apply in_map_iff in Hin as (b & Eb & Ib); rewrite Forall_forall in A6; apply A6 in Ib; lia|].
        split.
        { intros ->. rewrite andb_true_r in Un. rewrite Un in *. destruct (A8 eq_refl) as (B1 & B2 & B3). cbn [orb] in B2. split; [constructor; [reflexivity|exact B1]|]. split; [discriminate|].
          intros [|y l1] it r E U; injection E as <- E; [|eapply B3; eassumption]. subst l. apply B2. destruct f as [? ? ? [?|] ?]; [discriminate U|reflexivity]. }
        intros F I p'' before Hs Hb Hg Ha. cbn [fields_of map snd] in Ha. fold i in Ha.
        assert (E1 : fget p1 i = Some (placeholder x false)) by (eapply ext_fget; [exact X1|]; apply st_add_get).
        assert (E2 : fget (cs_prog s') i = Some (set_mid t' c us (placeholder x false))) by (eapply ext_fget; [exact A4|]; apply st_set_same; exact E1).
        destruct (Ha i _ ltac:(lia) E2) as (fd & Ef & Sm & _). destruct Sm as (S1 & S2 & S3 & S4 & S5 & S6 & S7). cbn in S1, S2, S3, S4, S5, S6, S7.
        assert (G1 : grow p1 p'').
        { eapply grow_trans; [|eapply grow_trans; [apply ext_grow; exact A4|exact Hg]]. apply st_set_grow. intros g Eg U. rewrite E1 in Eg. injection Eg as <-. destruct U. }
        assert (Sc : scoped (frame0 :: {| fr_fields := cs_fields s; fr_inputs := [] |} :: sc) (before ++ F) I).
        { apply scoped_frame0. intros y. specialize (scoped_fields _ _ _ (cs_fields s) Hs y) as [-> ->]. rewrite !mget_app, Hb. split; reflexivity. }
        specialize (K1 _ _ p'' Sc G1). destruct f as [t calc flags cond xs]. destruct K1 as (-> & B1 & B2 & B3).
        { intros j fj Lj Ej. rewrite st_add_size in Lj. fold i in Lj. destruct (Ha j fj) as (fj' & Ej' & _ & Sj); [lia| |exists fj'; split; [exact Ej'|]].
          - eapply ext_fget; [exact A4|]. rewrite st_set_other by lia. exact Ej.
          - apply Sj. intros [Hin|Hin]; [lia|]. apply in_map_iff in Hin as (b & Eb & Ib). apply fields_incl in Ib. rewrite Forall_forall in A6. apply A6 in Ib. lia. }
        rewrite <- S3 in B1. rewrite <- S4 in B2. rewrite <- S5 in B3.
        eapply n_field; try eassumption. apply A9; try assumption.
        * intros y. cbn [mget]. rewrite mget_app. cbn [mget]. destruct (name_eqb y x) eqn:Ey; [apply name_eqb_eq in Ey as ->; rewrite Nf; reflexivity|]. rewrite Hb. destruct (mget y (cs_fields s)); reflexivity.
        * intros j fj Lj Ej. rewrite st_set_size in Lj. destruct (Ha j fj ltac:(lia) Ej) as (fj' & Ej' & S' & S''). exists fj'. split; [exact Ej'|]. split; [exact S'|]. intros Hn. apply S''. intros [Hin|Hin]; [lia|contradiction].
  Qed.

  Lemma inline_case t : (forall sc u p, ctype en n sc t u p = bind (cinl en n p sc t u) (fun t' => Ok (t', p))) -> Pt t.
  Proof.
    intros Eq sc u p t' p' H _. rewrite Eq in H. destruct (cinl en n p sc t u) as [a| | |] eqn:E; cbn [bind] in H; try discriminate H. apply Ok_inj in H. injection H as <- <-.
    split; [apply ext_refl|]. intros F I p'' Hs Hg _. apply e_inl. eapply cinl_minl; eassumption.
  Qed.
  Lemma cont_case len flags items : Forall (item_all (fun _ => True) Pf) items -> Pt (YCont len flags items).
  Proof.
    intros Hi sc u p t' p' H C. rewrite ctype_cont in H. apply clean_cont in C.
    assert (K : bind (copt en n p sc len (PScalar (PDefaults U64))) (fun len' => bind (cflags flags false) (fun tagged =>
        if tagged && negb (match u with ForType _ => true | _ => false end) then Err XToplevel else
        bind (citems sc tagged items {| cs_prog := p; cs_items := []; cs_fields := []; cs_ends := []; cs_uncond := false; cs_pads := 0 |}) (fun s =>
        bind (cends en n (frame0 :: {| fr_fields := cs_fields s; fr_inputs := [] |} :: sc) (cs_ends s) (cs_prog s)) (fun p2 =>
        Ok (FCont len' (cs_items s) tagged, p2))))) = Ok (t', p')) by (destruct u; [exact H|exact H|discriminate H|exact H|exact H]). clear H.
    destruct (copt en n p sc len _) as [len'| | |] eqn:El; cbn [bind] in K; try discriminate K. destruct (cflags flags false) as [tagged| | |] eqn:Ef; cbn [bind] in K; try discriminate K.
    destruct (tagged && _) eqn:Tp; [discriminate K|].
    destruct (citems sc tagged items _) as [s| | |] eqn:Ei; cbn [bind] in K; try discriminate K. destruct (cends _ _ _ _ _) as [p2| | |] eqn:Ee; cbn [bind] in K; try discriminate K.
    apply Ok_inj in K. injection K as <- <-. apply cflags_spec in Ef as [Fl Tg].
    destruct (citems_spec _ _ _ Hi _ _ Ei C) as (its & A1 & A2 & A3 & A4 & A5 & A6 & A7 & A8 & A9).
    { constructor; cbn; [constructor|tauto|reflexivity]. }
    cbn [cs_items cs_fields cs_ends cs_prog cs_uncond cs_pads app] in *. rewrite A1, A2, A3 in *.
    assert (NE : NoDup (map fst (ends_of items its))).
    { rewrite ends_ids. clear - A7. revert its A7. induction items as [|[e|x f] items IH]; intros [|b its] N; cbn in *; try constructor; inversion N; subst; auto.
      intros H. apply H1. apply in_map_iff in H as (c & E & H). apply fields_incl in H. apply in_map_iff. eauto. }
    destruct (cends_spec _ _ _ _ Ee NE) as (T & Sz & G & O & M). 
    assert (Lo : forall j, (j < size p)%nat -> fget p2 j = fget p j).
    { intros j L. rewrite O; [|intros Hin; rewrite ends_ids in Hin; apply in_map_iff in Hin as (b & Eb & Ib); apply fields_incl in Ib; rewrite Forall_forall in A6; apply A6 in Ib; lia].
      destruct A4 as [_ [l E]]. unfold fget. rewrite E. apply nth_error_app1. exact L. }
    assert (X : ext p p2).
    { constructor; [eapply tables_trans; [apply A4|exact T]|]. exists (skipn (size p) (p_store p2)).
      pose proof (ext_size _ _ A4) as L. rewrite <- Sz in L. clear - Lo L. unfold fget in Lo. revert Lo L. generalize (p_store p) (p_store p2). intros l. induction l as [|x l IH]; intros r Lo L; [reflexivity|].
      destruct r as [|y r]; [cbn in L; lia|]. cbn [List.length skipn app]. specialize (Lo 0%nat ltac:(cbn; lia)) as E0. injection E0 as <-. f_equal. apply IH; [|cbn in L; lia].
      intros j Lj. apply (Lo (S j)). cbn. lia. }
    split; [exact X|]. intros F I p'' Hs Hg Ha.
    assert (All : scoped (frame0 :: {| fr_fields := fields_of items its; fr_inputs := [] |} :: sc) (fields_of items its ++ F) I) by (apply scoped_frame0, scoped_fields; exact Hs).
    apply e_cont; [eapply copt_rel; [exact Hs|eapply grow_trans; [apply ext_grow; exact X|exact Hg]|exact El]|exact Fl|rewrite Tg; split; [intros [?|?]; [discriminate|assumption]|auto]| |rewrite <- A1; apply A5|].
    - intros ->. destruct (A8 eq_refl) as (B1 & B2 & B3). split; [destruct u; discriminate || (cbn; discriminate)|]. split; assumption.
    - assert (Mid : forall i f, (size p <= i < size (cs_prog s))%nat -> fget (cs_prog s) i = Some f -> exists f', fget p'' i = Some f' /\ sim f f' /\ (~ In i (map snd (fields_of items its)) -> same f f')).
      { intros i f L E. destruct (in_dec Nat.eq_dec i (map fst (ends_of items its))) as [Hin|Hn].
        - apply in_map_iff in Hin as ([i0 calc] & E0 & Hin). cbn in E0. subst i0. destruct (M _ _ Hin) as (g & c & Eg & Eg' & _). rewrite E in Eg. injection Eg as <-.
          destruct (Ha i _ ltac:(lia) Eg') as (f' & Ef' & Sf & _). exists f'. split; [exact Ef'|]. split; [eapply sim_trans; [|exact Sf]; repeat split|]. intros Hn. exfalso. apply Hn. rewrite <- ends_ids. apply in_map_iff. exists (i, calc). auto.
        - rewrite <- O in E by exact Hn. destruct (Ha i _ ltac:(lia) E) as (f' & Ef' & Sf). exists f'. split; [exact Ef'|]. split; [apply Sf|auto]. }
      apply imid_elab.
      + apply A9; [exact Hs|reflexivity|eapply grow_trans; eassumption|exact Mid].
      + intros i calc f Hin Ef. destruct (M _ _ Hin) as (g & c & Eg & Eg' & K). assert (Li : (size p <= i < size (cs_prog s))%nat).
        { apply (in_map fst) in Hin. rewrite ends_ids in Hin. apply in_map_iff in Hin as (b & Eb & Ib). apply fields_incl in Ib. rewrite Forall_forall in A6. apply A6 in Ib. cbn in Eb. lia. }
        destruct (Ha i _ ltac:(lia) Eg') as (f' & Ef' & _ & Sc). rewrite Ef in Ef'. injection Ef' as <-. rewrite Sc. cbn [set_calc f_calc]. apply K; assumption.
  Qed.
  Lemma types_fields : (forall e : aexpr, True) /\ (forall t, Pt t) /\ (forall f, Pf f).
  Proof.
    apply (syntax_ind (fun _ => True)); try (intros; exact Logic.I).
    - intros; apply inline_case; reflexivity.
    - intros; apply inline_case; reflexivity.
    - intros; apply inline_case; reflexivity.
    - intros; apply inline_case; reflexivity.
    - intros; apply inline_case; reflexivity.
    - intros rep items _ sc u p t' p' H _. cbn [ctype] in H. destruct u; try discriminate H. destruct (cenum en n p sc rep items None 0 false []) as [its| | |] eqn:E; cbn [bind] in H; try discriminate H.
      apply Ok_inj in H. injection H as <- <-. split; [apply ext_refl|]. intros F I p'' Hs Hg _. destruct (cenum_spec _ _ _ _ _ _ Hs Hg _ _ _ _ _ _ E) as (_ & ND & _ & its' & -> & K).
      cbn. constructor; assumption.
    - intros rep items _ sc u p t' p' H _. cbn [ctype] in H. destruct u; try discriminate H. destruct (cbits en n p sc rep items None 0 []) as [its| | |] eqn:E; cbn [bind] in H; try discriminate H.
      apply Ok_inj in H. injection H as <- <-. split; [apply ext_refl|]. intros F I p'' Hs Hg _. destruct (cbits_spec _ _ _ _ _ _ Hs Hg _ _ _ _ _ E) as (ND & _ & its' & -> & K).
      cbn. constructor; assumption.
    - intros. apply cont_case. assumption.
    - intros; apply inline_case; reflexivity.
    - intros. apply field_case. assumption.
  Qed.
  Lemma ctype_elab t : Pt t. Proof. apply types_fields. Qed.
  Lemma cmid_elab f : Pf f. Proof. apply types_fields. Qed.
End Conv.
