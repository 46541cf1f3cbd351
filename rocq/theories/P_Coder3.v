(** Properties C39-C42: calculated fields, transforms, tagged enums, padding. *)
From Verif Require Import ScalarFacts DecRef EncRef RtWf EnumBitsFacts RoundTrip Relax World Sample Reenc CoderFacts P_Coder.
Open Scope string_scope. Open Scope Z_scope. Open Scope list_scope.

(** ** C39 *)

(** C39. What the user stored in calculated fields does not matter: two structs that
    agree on the other fields are encoded identically (same bytes or same failure). *)
Lemma refs_same l fs1 fs2 : (forall f, In f l -> fa_calc (fst f) = None -> fa_pad (fst f) = false -> lookup (fa_name (fst f)) fs1 = lookup (fa_name (fst f)) fs2) ->
  forall en, se_refs l fs1 en = se_refs l fs2 en.
Proof.
  induction l as [|[a t] l IH]; intros H en; [reflexivity|]. cbn [se_refs]. destruct (fa_calc a) as [e|] eqn:Ec; cbn [is_some orb]; [apply IH; intros f Hf; apply H; right; exact Hf|].
  destruct (fa_pad a) eqn:Ep; [apply IH; intros f Hf; apply H; right; exact Hf|]. pose proof (H (a, t) (or_introl eq_refl) Ec Ep) as E. cbn [fst] in E. rewrite E. destruct (lookup (fa_name a) fs2); cbn [of_some bind]; [|reflexivity]. apply IH. intros f Hf. apply H. right. exact Hf.
Qed.
Lemma struct_same w p rf inp m erec items nm fs1 fs2 :
  (forall f, In f (flatten_items items) -> fa_calc (fst f) = None -> fa_pad (fst f) = false -> lookup (fa_name (fst f)) fs1 = lookup (fa_name (fst f)) fs2) ->
  se_struct w p rf inp m erec items (VStruct nm fs1) = se_struct w p rf inp m erec items (VStruct nm fs2).
Proof. intros H. unfold se_struct. cbn [fields_of bind]. rewrite (refs_same _ fs1 fs2 H). reflexivity. Qed.
Lemma sencode_same w p rf m : forall k n args d len items nm fs1 fs2, p n = Some d -> d_ty d = TCont len false items ->
  (forall f, In f (flatten_items items) -> fa_calc (fst f) = None -> fa_pad (fst f) = false -> lookup (fa_name (fst f)) fs1 = lookup (fa_name (fst f)) fs2) ->
  sencode w p rf m k n args (VStruct nm fs1) = sencode w p rf m k n args (VStruct nm fs2).
Proof.
  intros [|k] n args d len items nm fs1 fs2 Hd Ht H; [reflexivity|]. cbn [sencode]. rewrite Hd. cbn [of_some bind]. destruct (bind_params w (d_params d) args []) as [inp| | |]; cbn [bind]; try reflexivity.
  unfold se_top. rewrite Ht. rewrite (struct_same _ _ _ _ _ _ items nm fs1 fs2 H). reflexivity.
Qed.
Lemma encode_same w p rf : compiles p rf -> forall k n args d len items nm fs1 fs2, p n = Some d -> d_ty d = TCont len false items ->
  (forall f, In f (flatten_items items) -> fa_calc (fst f) = None -> fa_pad (fst f) = false -> lookup (fa_name (fst f)) fs1 = lookup (fa_name (fst f)) fs2) ->
  encode w p rf k n args (VStruct nm fs1) = encode w p rf k n args (VStruct nm fs2).
Proof. intros C k n args d len items nm fs1 fs2 Hd Ht H. rewrite !(encode_refines w p rf (proj2 C)). rewrite (sencode_same w p rf None k n args d len items nm fs1 fs2 Hd Ht H). reflexivity. Qed.
Theorem C39_stored_value_ignored : forall w p rf, compiles p rf -> forall k n args d len items nm fs1 fs2, p n = Some d -> d_ty d = TCont len false items ->
  (forall f, In f (flatten_items items) -> fa_calc (fst f) = None -> fa_pad (fst f) = false -> lookup (fa_name (fst f)) fs1 = lookup (fa_name (fst f)) fs2) ->
  encode w p rf k n args (VStruct nm fs1) = encode w p rf k n args (VStruct nm fs2).
Proof. exact encode_same. Qed.
Print Assumptions C39_stored_value_ignored.

(** C39. A calculated field is written, in its place, as the value of its formula over
    the other fields ([scope_of]). *)
Lemma items_no_blen w p rf inp m erec items : Forall no_blen items -> Forall item_ok (map (se_item w p rf inp m erec) items).
Proof. intros H. apply Forall_map. eapply Forall_impl; [|exact H]. intros [a t] Hf. exact Hf. Qed.
Lemma in_flat_leaf items a t : In (a, t) items -> is_cont t = false -> In (a, t) (flatten_items items).
Proof. intros H Hc. unfold flatten_items. apply in_flat_map. exists (a, t). split; [exact H|]. unfold flatten_field. cbn [snd]. rewrite Hc. left. reflexivity. Qed.
Lemma calc_encode w p rf : compiles p rf -> forall k n args d inp pre a t post e nm fs b,
  p n = Some d -> bind_params w (d_params d) args [] = Ok inp -> d_ty d = TCont None false (pre ++ (a, t) :: post) -> fa_xs (d_attr d) = [] ->
  Forall no_blen (pre ++ (a, t) :: post) ->
  fa_calc a = Some e -> fa_cond a = None -> fa_xs a = [] -> fa_pad a = false -> is_cont t = false ->
  encode w p rf (S k) n args (VStruct nm fs) = Ok b ->
  exists en b1 b2 b3 v v', scope_of w (fun y => lookup y inp) (flatten_items (pre ++ (a, t) :: post)) fs en /\ b = b1 ++ b2 ++ b3 /\
    eval w (fun y => lookup y inp) (fun y => lookup y en) e = Ok v /\ se_type w p rf (fun y => lookup y inp) None (sencode w p rf None k) en t v = Ok (b2, v').
Proof.
  intros Hp k n args d inp pre a t post e nm fs b Hd Hi Ht Hx HN Hca Hc Hxs Hpd Hct H.
  destruct (encode_struct w p rf Hp k n args d inp _ nm fs b Hd Hi Ht Hx H) as (en & vs & Sc & E). pose proof (items_no_blen w p rf (fun x => lookup x inp) None (sencode w p rf None k) _ HN) as NB. rewrite map_app in E, NB. cbn [map] in E, NB.
  change (se_item w p rf (fun x => lookup x inp) None (sencode w p rf None k) (a, t)) with (a, t, se_complex w p rf (fun x => lookup x inp) None (sencode w p rf None k) a t) in *.
  apply se_items_split in E; [|exact NB]. destruct E as (b1 & vs1 & v & b2 & vs2 & n0 & b3 & vs3 & E1 & E2 & E3 & E4 & -> & ->). rewrite Hct, Hpd in E2. specialize (E2 eq_refl).
  rewrite Forall_app in HN. destruct HN as (_ & HN). inversion HN as [|? ? N1 _]; subst. unfold no_blen in N1. cbn [fst] in N1. rewrite Hca in N1.
  destruct (proj2 Sc (a, t) e) as (v1 & V1 & V2); [apply in_flat_leaf; [apply in_or_app; right; left; reflexivity|exact Hct]|exact Hca|exact N1|]. cbn [fst] in V2. assert (v1 = v) by congruence. subst v1.
  unfold se_field in E3. rewrite Hc, Hxs in E3. cbn [se_xs bind] in E3. rewrite se_complex_leaf in E3 by (unfold leaf; cbn [fst snd]; rewrite Hpd, Hct; reflexivity). bi E3 y Ey. destruct y as [b0 vs0]. apply Ok_inj in E3. injection E3 as -> <- <-. bi Ey z Ez. destruct z as [b4 v']. apply Ok_inj in Ey. injection Ey as -> <-.
  exists en, b1, b2, b3, v, v'. auto.
Qed.
Theorem C39_formula_written : forall w p rf, compiles p rf -> forall k n args d inp pre a t post e nm fs b,
  p n = Some d -> bind_params w (d_params d) args [] = Ok inp -> d_ty d = TCont None false (pre ++ (a, t) :: post) -> fa_xs (d_attr d) = [] ->
  Forall no_blen (pre ++ (a, t) :: post) ->
  fa_calc a = Some e -> fa_cond a = None -> fa_xs a = [] -> fa_pad a = false -> is_cont t = false ->
  encode w p rf (S k) n args (VStruct nm fs) = Ok b ->
  exists en b1 b2 b3 v v', scope_of w (fun y => lookup y inp) (flatten_items (pre ++ (a, t) :: post)) fs en /\ b = b1 ++ b2 ++ b3 /\
    eval w (fun y => lookup y inp) (fun y => lookup y en) e = Ok v /\ se_type w p rf (fun y => lookup y inp) None (sencode w p rf None k) en t v = Ok (b2, v').
Proof. exact calc_encode. Qed.
Print Assumptions C39_formula_written.

(** C39, [blen]: a field whose formula asks for the byte length of a later container is
    written before what lies between, with the number of bytes the container took. *)
Lemma waiting_items w inp m mid : Forall item_ok mid -> forall its en c out vs0 x, Forall (fun f => fa_name (fst (fst f)) <> wt_on x) mid ->
  se_items w inp m (mid ++ its) en c out vs0 (Some x) = let! (b, vs) := se_items w inp m mid en c [] [] None in
    se_items w inp m its en c out vs0 (Some {| wt_on := wt_on x; wt_item := wt_item x; wt_calc := wt_calc x; wt_bytes := wt_bytes x ++ b; wt_vals := wt_vals x ++ vs |}).
Proof.
  induction 1 as [|[[a t] k] mid Hf Hm IH]; intros its en c out vs0 x HN; [cbn [app se_items bind]; destruct x; cbn; rewrite !app_nil_r; reflexivity|].
  inversion HN as [|? ? N1 N2]; subst. cbn [fst] in N1. unfold item_ok, no_blen in Hf. cbn [fst] in Hf. cbn [app se_items]. destruct (String.eqb_spec (wt_on x) (fa_name a)) as [E|_]; [congruence|].
  assert (P : forall (X : res ioerr val),
    (let! v := X in let! (b, (vs, n)) := se_field w inp m (a, t, k) en v c false in
       se_items w inp m (mid ++ its) en c out vs0 (Some {| wt_on := wt_on x; wt_item := wt_item x; wt_calc := wt_calc x; wt_bytes := wt_bytes x ++ b; wt_vals := wt_vals x ++ vs |})) =
    (let! (b, vs) := (let! v := X in let! (b, (vs, n)) := se_field w inp m (a, t, k) en v c false in se_items w inp m mid en c ([] ++ b) ([] ++ vs) None) in
       se_items w inp m its en c out vs0 (Some {| wt_on := wt_on x; wt_item := wt_item x; wt_calc := wt_calc x; wt_bytes := wt_bytes x ++ b; wt_vals := wt_vals x ++ vs |}))).
  { intros [v| | |]; cbn [bind]; try reflexivity. destruct (se_field w inp m (a, t, k) en v c false) as [[b [vs n]]| | |]; cbn [bind]; try reflexivity. rewrite IH by exact N2. cbn [app wt_on wt_item wt_calc wt_bytes wt_vals].
    rewrite (se_items_acc w inp m mid Hm en c b vs). destruct (se_items w inp m mid en c [] [] None) as [[b' vs']| | |]; cbn [bind]; try reflexivity. rewrite !app_assoc. reflexivity. }
  cbn [andb]. destruct (fa_calc a) as [e|]; [rewrite Hf|]; apply P.
Qed.
Lemma blen_encode w p rf : compiles p rf -> forall k n args d inp pre a t e mid ca le sub post nm fs b,
  p n = Some d -> bind_params w (d_params d) args [] = Ok inp ->
  d_ty d = TCont None false (pre ++ (a, t) :: mid ++ (ca, TCont (Some le) false sub) :: post) -> fa_xs (d_attr d) = [] ->
  Forall no_blen pre -> Forall no_blen mid -> Forall no_blen post ->
  fa_calc a = Some e -> blen_calls e = Some [fa_name ca] -> fa_cond a = None -> fa_xs a = [] -> fa_pad a = false -> is_cont t = false ->
  fa_calc ca = None -> fa_cond ca = None -> fa_xs ca = [] -> fa_pad ca = false -> Forall (fun f => fa_name (fst f) <> fa_name ca) mid ->
  encode w p rf (S k) n args (VStruct nm fs) = Ok b ->
  exists en b1 b2 bm bc b3 e' v v' en',
    scope_of w (fun y => lookup y inp) (flatten_items (pre ++ (a, t) :: mid ++ (ca, TCont (Some le) false sub) :: post)) fs en /\
    b = b1 ++ b2 ++ bm ++ bc ++ b3 /\
    rewrite_blen [fa_name ca] e = Some e' /\
    eval w (fun y => lookup y inp) (fun y => lookup y ((blen_name (fa_name ca), VInt U64 (Z.of_nat (List.length bc))) :: en)) e' = Ok v /\
    se_type w p rf (fun y => lookup y inp) None (sencode w p rf None k) en' t v = Ok (b2, v') /\
    exists vs, se_items w (fun y => lookup y inp) None (map (se_item w p rf (fun y => lookup y inp) None (sencode w p rf None k)) sub) en false [] [] None = Ok (bc, vs).
Proof.
  intros Hp k n args d inp pre a t e mid ca le sub post nm fs b Hd Hi Ht Hx N1 N2 N3 Hca Hbl Hc Hxs Hpd Hct Cca Cc Cxs Cpd HM H.
  destruct (encode_struct w p rf Hp k n args d inp _ nm fs b Hd Hi Ht Hx H) as (en & vs & Sc & E).
  set (IT := se_item w p rf (fun x => lookup x inp) None (sencode w p rf None k)) in *.
  assert (Ap : forall l f its en c out vs0, Forall item_ok (map IT l) -> se_items w (fun x => lookup x inp) None (map IT l ++ f :: its) en c out vs0 None =
     let! (b, vs) := se_items w (fun x => lookup x inp) None (map IT l) en c [] [] None in se_items w (fun x => lookup x inp) None (f :: its) en c (out ++ b) (vs0 ++ vs) None).
  { clear. induction l as [|[a t] l IH]; intros f its en c out vs0 HF; [cbn [map app]; cbn [bind se_items]; rewrite !app_nil_r; reflexivity|].
    cbn [map app] in *. inversion HF as [|? ? F1 F2]; subst. unfold item_ok, no_blen in F1. change (IT (a, t)) with (a, t, snd (IT (a, t))) in *. cbn [fst] in F1. cbn [se_items].
    set (kk := snd (IT (a, t))) in *.
    assert (P : forall (X : res ioerr val),
      (let! v := X in let! (b, (vs, n)) := se_field w (fun x => lookup x inp) None (a, t, kk) en v c false in se_items w (fun x => lookup x inp) None (map IT l ++ f :: its) en c (out ++ b) (vs0 ++ vs) None) =
      (let! (b, vs) := (let! v := X in let! (b, (vs, n)) := se_field w (fun x => lookup x inp) None (a, t, kk) en v c false in se_items w (fun x => lookup x inp) None (map IT l) en c ([] ++ b) ([] ++ vs) None) in
       se_items w (fun x => lookup x inp) None (f :: its) en c (out ++ b) (vs0 ++ vs) None)).
    { intros [v| | |]; cbn [bind]; try reflexivity. destruct (se_field w (fun x => lookup x inp) None (a, t, kk) en v c false) as [[b [vs n]]| | |]; cbn [bind]; try reflexivity. rewrite IH by exact F2.
      rewrite (se_items_acc w _ None (map IT l) F2 en c ([] ++ b) ([] ++ vs)). cbn [app]. destruct (se_items w (fun x => lookup x inp) None (map IT l) en c [] [] None) as [[b' vs']| | |]; cbn [bind]; try reflexivity. rewrite !app_assoc. reflexivity. }
    destruct (fa_calc a) as [e|]; [rewrite F1|]; apply P. }
  rewrite map_app in E. cbn [map] in E. rewrite map_app in E. cbn [map] in E. rewrite Ap in E by (apply items_no_blen; exact N1). bi E y1 E1. destruct y1 as [b1 vs1]. cbn [app] in E.
  cbn [se_items] in E. unfold IT at 1 in E. unfold se_item at 1 in E. cbn [fst snd] in E. rewrite Hca, Hbl in E.
  rewrite waiting_items in E; [|apply items_no_blen; exact N2|cbn [wt_on]; apply Forall_map; eapply Forall_impl; [|exact HM]; intros [a' t'] Hn; exact Hn].
  bi E y2 E2. destruct y2 as [bm vsm]. cbn [wt_on wt_item wt_calc wt_bytes wt_vals app] in E.
  cbn [se_items] in E. unfold IT at 1 in E. unfold se_item at 1 in E. cbn [fst snd wt_on wt_item wt_calc wt_bytes wt_vals] in E. rewrite Cca in E. cbn [is_cont orb bind] in E. rewrite String.eqb_refl in E. cbn [cont_len is_some andb] in E.
  bi E y3 E3. destruct y3 as [bc [vsc nc]]. bi E e' Ee. bi E cv Ecv. bi E y4 E4. destruct y4 as [b2 [vs2 n2]]. assert (F3o : Forall item_ok (map IT post)) by (apply items_no_blen; exact N3). rewrite (se_items_acc w (fun x => lookup x inp) None (map IT post) F3o) in E. bi E y5 E5. destruct y5 as [b3 vs3]. apply Ok_inj in E. injection E as <- <-.
  unfold IT in E3. unfold se_field, se_item in E3. cbn [fst snd] in E3. rewrite Cc, Cxs in E3. cbn [se_xs bind se_complex] in E3. rewrite Cpd in E3. bi E3 z3 F3. destruct z3 as [bc' vsc']. apply Ok_inj in E3. injection E3 as -> -> <-.
  cbn [se_limit bind] in F3.
  unfold IT in E4. unfold se_field, se_item in E4. cbn [fst snd] in E4. rewrite Hc, Hxs in E4. cbn [se_xs bind] in E4. rewrite se_complex_leaf in E4 by (unfold leaf; cbn [fst snd]; rewrite Hpd, Hct; reflexivity). bi E4 z4 F4. destruct z4 as [b2' vs2']. apply Ok_inj in E4. injection E4 as -> -> <-. bi F4 z5 F5. destruct z5 as [b2'' v']. apply Ok_inj in F4. injection F4 as -> <-.
  exists en, b1, b2, bm, bc, b3, e', cv, v'. eexists. split; [exact Sc|]. split; [rewrite !app_assoc; reflexivity|]. split; [destruct (rewrite_blen _ e) as [e0|]; [apply Ok_inj in Ee; congruence|discriminate Ee]|]. split; [exact Ecv|]. split; [exact F5|]. exists vsc. exact F3.
Qed.

(** C39. The same when the formula asks for the byte length of a length-delimited
    container ([blen(name)]): the contents of the container are written first, and the
    field holds the formula with the call standing for the number of bytes they took. *)
Theorem C39_blen_written : forall w p rf, compiles p rf -> forall k n args d inp pre a t e mid ca le sub post nm fs b,
  p n = Some d -> bind_params w (d_params d) args [] = Ok inp ->
  d_ty d = TCont None false (pre ++ (a, t) :: mid ++ (ca, TCont (Some le) false sub) :: post) -> fa_xs (d_attr d) = [] ->
  Forall no_blen pre -> Forall no_blen mid -> Forall no_blen post ->
  fa_calc a = Some e -> blen_calls e = Some [fa_name ca] -> fa_cond a = None -> fa_xs a = [] -> fa_pad a = false -> is_cont t = false ->
  fa_calc ca = None -> fa_cond ca = None -> fa_xs ca = [] -> fa_pad ca = false -> Forall (fun f => fa_name (fst f) <> fa_name ca) mid ->
  encode w p rf (S k) n args (VStruct nm fs) = Ok b ->
  exists en b1 b2 bm bc b3 e' v v' en',
    scope_of w (fun y => lookup y inp) (flatten_items (pre ++ (a, t) :: mid ++ (ca, TCont (Some le) false sub) :: post)) fs en /\
    b = b1 ++ b2 ++ bm ++ bc ++ b3 /\
    rewrite_blen [fa_name ca] e = Some e' /\
    eval w (fun y => lookup y inp) (fun y => lookup y ((blen_name (fa_name ca), VInt U64 (Z.of_nat (List.length bc))) :: en)) e' = Ok v /\
    se_type w p rf (fun y => lookup y inp) None (sencode w p rf None k) en' t v = Ok (b2, v') /\
    exists vs, se_items w (fun y => lookup y inp) None (map (se_item w p rf (fun y => lookup y inp) None (sencode w p rf None k)) sub) en false [] [] None = Ok (bc, vs).
Proof. exact blen_encode. Qed.
Print Assumptions C39_blen_written.

(** C39 for the usual shape of such a field, [f: s = blen(c) :> s]: the field is written
    as the number of bytes of the container's contents, reduced to the field's type. *)
Lemma blen_field w p rf : compiles p rf -> forall k n args d inp pre a s ft mid ca le sub post nm fs b,
  p n = Some d -> bind_params w (d_params d) args [] = Ok inp ->
  d_ty d = TCont None false (pre ++ (a, TScalar s) :: mid ++ (ca, TCont (Some le) false sub) :: post) -> fa_xs (d_attr d) = [] ->
  Forall no_blen pre -> Forall no_blen mid -> Forall no_blen post ->
  fa_calc a = Some (ECast (ECall "blen" [EField (fa_name ca) ft]) (TyScalar s)) -> fa_cond a = None -> fa_xs a = [] -> fa_pad a = false ->
  fa_calc ca = None -> fa_cond ca = None -> fa_xs ca = [] -> fa_pad ca = false -> Forall (fun f => fa_name (fst f) <> fa_name ca) mid ->
  encode w p rf (S k) n args (VStruct nm fs) = Ok b ->
  exists en b1 bm bc b3, b = b1 ++ scalar_bytes s (wrap (es_scalar s) (Z.of_nat (List.length bc))) ++ bm ++ bc ++ b3 /\
    scope_of w (fun y => lookup y inp) (flatten_items (pre ++ (a, TScalar s) :: mid ++ (ca, TCont (Some le) false sub) :: post)) fs en /\
    exists vs, se_items w (fun y => lookup y inp) None (map (se_item w p rf (fun y => lookup y inp) None (sencode w p rf None k)) sub) en false [] [] None = Ok (bc, vs).
Proof.
  intros C k n args d inp pre a s ft mid ca le sub post nm fs b Hd Hi Ht Hx N1 N2 N3 Hca Hc Hxs Hpd Cca Cc Cxs Cpd HM H.
  destruct (blen_encode w p rf C k n args d inp pre a _ _ mid ca le sub post nm fs b Hd Hi Ht Hx N1 N2 N3 Hca eq_refl Hc Hxs Hpd eq_refl Cca Cc Cxs Cpd HM H) as (en & b1 & b2 & bm & bc & b3 & e' & v & v' & en' & Sc & Eb & Er & Ev & Es & Ec).
  cbn [rewrite_blen] in Er. change (String.eqb "blen" "blen") with true in Er. cbn [mem] in Er. unfold mem in Er. cbn [existsb] in Er. rewrite String.eqb_refl in Er. cbn [orb] in Er. cbv iota in Er. injection Er as <-.
  unfold eval in Ev. cbn [emit get_type] in Ev. unfold ty_u64 in Ev. cbn [reval] in Ev. rewrite lookup_cons, String.eqb_refl in Ev. cbn [of_some bind ras] in Ev. apply Ok_inj in Ev. subst v.
  cbn [se_type] in Es. unfold se_prim, prim_enc in Es. rewrite scalar_eqb_refl' in Es. destruct (in_range (es_scalar s) (wrap (es_scalar s) (Z.of_nat (List.length bc)))); [|discriminate Es]. cbn [andb bind] in Es. apply Ok_inj in Es. injection Es as <- _.
  exists en, b1, bm, bc, b3. split; [exact Eb|]. split; [exact Sc|exact Ec].
Qed.
Theorem C39_blen_counts_bytes : forall w p rf, compiles p rf -> forall k n args d inp pre a s ft mid ca le sub post nm fs b,
  p n = Some d -> bind_params w (d_params d) args [] = Ok inp ->
  d_ty d = TCont None false (pre ++ (a, TScalar s) :: mid ++ (ca, TCont (Some le) false sub) :: post) -> fa_xs (d_attr d) = [] ->
  Forall no_blen pre -> Forall no_blen mid -> Forall no_blen post ->
  fa_calc a = Some (ECast (ECall "blen" [EField (fa_name ca) ft]) (TyScalar s)) -> fa_cond a = None -> fa_xs a = [] -> fa_pad a = false ->
  fa_calc ca = None -> fa_cond ca = None -> fa_xs ca = [] -> fa_pad ca = false -> Forall (fun f => fa_name (fst f) <> fa_name ca) mid ->
  encode w p rf (S k) n args (VStruct nm fs) = Ok b ->
  exists en b1 bm bc b3, b = b1 ++ scalar_bytes s (wrap (es_scalar s) (Z.of_nat (List.length bc))) ++ bm ++ bc ++ b3 /\
    scope_of w (fun y => lookup y inp) (flatten_items (pre ++ (a, TScalar s) :: mid ++ (ca, TCont (Some le) false sub) :: post)) fs en /\
    exists vs, se_items w (fun y => lookup y inp) None (map (se_item w p rf (fun y => lookup y inp) None (sencode w p rf None k)) sub) en false [] [] None = Ok (bc, vs).
Proof. exact blen_field. Qed.
Print Assumptions C39_blen_counts_bytes.

(** C39. Decoding what was written from a struct with any stored values in calculated
    fields gives the calculated values back.  Partial: the values stored in nested
    structs must already be the calculated ones. *)
Lemma decode_reproduces w g mk p rf : world_laws w g mk -> world_suffixing w -> rt_program p mk -> compiles p rf ->
  forall k n args d len items nm fs fs' b rest, p n = Some d -> d_ty d = TCont len false items -> (mk_ty mk n = true -> rest = []) ->
  sencode w p rf (Some g) k n args (VStruct nm fs) = Ok (b, VStruct nm fs') ->
  (forall f, In f (flatten_items items) -> fa_calc (fst f) = None -> fa_pad (fst f) = false -> lookup (fa_name (fst f)) fs = lookup (fa_name (fst f)) fs') ->
  encode w p rf k n args (VStruct nm fs) = Ok b /\ decode w p rf k n args (b ++ rest) = Ok (VStruct nm fs', rest).
Proof.
  intros L S R C k n args d len items nm fs fs' b rest Hd Ht Hr H A.
  rewrite (sencode_same w p rf (Some g) k n args d len items nm fs fs' Hd Ht A) in H.
  assert (F : foreign_of p n = None) by (unfold foreign_of; rewrite Hd; destruct d as [da dt dp]; cbn in Ht |- *; rewrite Ht; reflexivity).
  destruct (C31_roundtrip_partial w g mk p rf L S R C k n args _ b rest F H Hr) as (E & D). split; [|exact D].
  rewrite (encode_same w p rf C k n args d len items nm fs fs' Hd Ht A). exact E.
Qed.
Theorem C39_decode_reproduces_partial : forall w g mk p rf, world_laws w g mk -> world_suffixing w -> rt_program p mk -> compiles p rf ->
  forall k n args d len items nm fs fs' b rest, p n = Some d -> d_ty d = TCont len false items -> (mk_ty mk n = true -> rest = []) ->
  sencode w p rf (Some g) k n args (VStruct nm fs) = Ok (b, VStruct nm fs') ->
  (forall f, In f (flatten_items items) -> fa_calc (fst f) = None -> fa_pad (fst f) = false -> lookup (fa_name (fst f)) fs = lookup (fa_name (fst f)) fs') ->
  encode w p rf k n args (VStruct nm fs) = Ok b /\ decode w p rf k n args (b ++ rest) = Ok (VStruct nm fs', rest).
Proof. exact decode_reproduces. Qed.
Print Assumptions C39_decode_reproduces_partial.

Definition stale_packet : val := VStruct "Packet"
  [ ("kind", VEnum kind_def (VNamed "Data")); ("flags", VBits flags_def 257); ("count", VInt U16 999);
    ("data", VArr [VInt U16 1; VInt U16 65535]); ("seq", VOpt (Some (VInt U32 70000)));
    ("bodylen", VInt U32 0); ("name", VStr [233; 65]);
    ("item", VStruct "Item" [("id", VInt I32 300); ("raw", u8s [9; 10])]); ("rest", VArr [VInt I16 (-1); VInt I16 2]);
    ("tail", u8s [5; 6]) ].
Example C39_nonvacuous : exists b, encode prelude_world sample 20 5 "Packet" [] stale_packet = Ok b
  /\ encode prelude_world sample 20 5 "Packet" [] packet = Ok b
  /\ decode prelude_world sample 20 5 "Packet" [] (b ++ [9]) = Ok (packet, [9]).
Proof.
  exists [7;1;1;2;0;0;1;255;255;0;1;17;112;0;0;0;0;0;0;12;195;169;65;0;172;2;9;10;255;255;2;0;5;6;0].
  split; [vm_compute; reflexivity|]. split; vm_compute; reflexivity.
Qed.

(** C39 fails for two byte-length fields whose containers both follow: the first length
    stays pending while the second is met (compiler/encoder.rs keeps both open), and the
    container bytes end up in the wrong order or the compiler itself panics. *)
Definition two_blen : list (string * decl) :=
  [ decl0 "T" (TCont None false
      [ (calc "la" (ECast (ECall "blen" [EField "a" ty_u8]) ty_u8), be U8);
        (calc "lb" (ECast (ECall "blen" [EField "b" ty_u8]) ty_u8), be U8);
        (fld "a", TCont (Some (ECast (EField "la" ty_u8) ty_u64)) false [(fld "x", be U8)]);
        (fld "b", TCont (Some (ECast (EField "lb" ty_u8) ty_u64)) false [(fld "y", be U16)]) ]) ].
Definition two_blen_val : val := VStruct "T" [("la", VInt U8 1); ("lb", VInt U8 2); ("x", VInt U8 7); ("y", VInt U16 258)].
Theorem C39_two_lengths_refuted :
  encode prelude_world (prog two_blen) 20 5 "T" [] two_blen_val = Ok [2; 7; 1; 1; 2]
  /\ decode prelude_world (prog two_blen) 20 5 "T" [] [1; 2; 7; 1; 2] = Ok (two_blen_val, [])
  /\ decode prelude_world (prog two_blen) 20 5 "T" [] [2; 7; 1; 1; 2] <> Ok (two_blen_val, []).
Proof. split; [vm_compute; reflexivity|]. split; [vm_compute; reflexivity|]. intros H. vm_compute in H. discriminate H. Qed.
Print Assumptions C39_two_lengths_refuted.

(** ** C40 *)

(** Specification: the transforms of a field that apply (their conditions hold), with
    their argument values, in the order they are declared; [wrapped]: the bytes are the
    plain bytes sent through the list, the last one first; [unwrapped]: the plain bytes
    are got from the bytes by undoing the list, the first one first. *)
Inductive active (w : world) (inp fields : string -> option val) : list xuse -> list (string * list val) -> Prop :=
| act_nil : active w inp fields [] []
| act_skip x xs r e : x_cond x = Some e -> eval w inp fields e = Ok (VBool false) -> active w inp fields xs r -> active w inp fields (x :: xs) r
| act_use x xs r vs : (forall e, x_cond x = Some e -> eval w inp fields e = Ok (VBool true)) -> mapM (eval w inp fields) (x_args x) = Ok vs ->
    active w inp fields xs r -> active w inp fields (x :: xs) ((x_name x, vs) :: r).
Inductive wrapped (w : world) : list (string * list val) -> list Z -> list Z -> Prop :=
| wr_nil b : wrapped w [] b b
| wr_cons n vs acts plain mid b : wrapped w acts plain mid -> w_xenc w n vs mid = Ok b -> wrapped w ((n, vs) :: acts) plain b.
Inductive unwrapped (w : world) : list (string * list val) -> list Z -> list Z -> Prop :=
| un_nil b : unwrapped w [] b b
| un_cons n vs acts plain mid b rest : w_xdec w n vs b = Ok (mid, rest) -> unwrapped w acts mid plain -> unwrapped w ((n, vs) :: acts) b plain.

Lemma se_xs_wrapped {A} w inp m en xs (k : res ioerr (list Z * A)) : forall b a, se_xs w inp m en xs k = Ok (b, a) ->
  exists acts plain, active w inp (fun n => lookup n en) xs acts /\ k = Ok (plain, a) /\ wrapped w acts plain b.
Proof.
  induction xs as [|x xs IH]; intros b a H; cbn [se_xs] in H; [exists [], b; split; [constructor|split; [exact H|constructor]]|].
  bi H c Ec. assert (Hc : forall e, x_cond x = Some e -> eval w inp (fun n => lookup n en) e = Ok (VBool c)).
  { intros e He. rewrite He in Ec. bi Ec v Ev. destruct v; try discriminate Ec. cbn in Ec. apply Ok_inj in Ec. subst. exact Ev. }
  destruct c.
  - bi H vs Evs. bi H y Ey. destruct y as [b0 a0]. bi H b1 Eb1. assert (a0 = a /\ b1 = b) as (-> & ->) by (unfold refuse in H; destruct m; [destruct (g_x _ _ _ _); [|discriminate H]|]; apply Ok_inj in H; split; congruence).
    destruct (IH _ _ Ey) as (acts & plain & A1 & A2 & A3). exists ((x_name x, vs) :: acts), plain. split; [apply act_use; assumption|]. split; [exact A2|]. econstructor; eassumption.
  - destruct (IH _ _ H) as (acts & plain & A1 & A2 & A3). destruct (x_cond x) as [e|] eqn:Ee; [|discriminate Ec]. exists acts, plain. split; [eapply act_skip; [exact Ee|apply Hc; reflexivity|exact A1]|]. split; assumption.
Qed.
Lemma sd_xs_unwrapped {A} w inp en xs (k : list Z -> res ioerr (A * list Z)) : forall l a rest, sd_xs w inp en xs k l = Ok (a, rest) ->
  exists acts plain r', active w inp (fun n => lookup n en) xs acts /\ unwrapped w acts l plain /\ k plain = Ok (a, r').
Proof.
  induction xs as [|x xs IH]; intros l a rest H; cbn [sd_xs] in H; [exists [], l, rest; split; [constructor|split; [constructor|exact H]]|].
  bi H c Ec. assert (Hc : forall e, x_cond x = Some e -> eval w inp (fun n => lookup n en) e = Ok (VBool c)).
  { intros e He. rewrite He in Ec. bi Ec v Ev. destruct v; try discriminate Ec. cbn in Ec. apply Ok_inj in Ec. subst. exact Ev. }
  destruct c.
  - bi H vs Evs. bi H y Ey. destruct y as [pl r]. bi H z Ez. destruct z as [a0 r0]. apply Ok_inj in H. injection H as <- <-.
    destruct (IH _ _ _ Ez) as (acts & plain & r' & A1 & A2 & A3). exists ((x_name x, vs) :: acts), plain, r'. split; [apply act_use; assumption|]. split; [econstructor; eassumption|exact A3].
  - destruct (IH _ _ _ H) as (acts & plain & r' & A1 & A2 & A3). destruct (x_cond x) as [e|] eqn:Ee; [|discriminate Ec]. exists acts, plain, r'. split; [eapply act_skip; [exact Ee|apply Hc; reflexivity|exact A1]|]. split; assumption.
Qed.

(** C40, writing: a field's bytes are the encoding of its value sent through the last
    transform first, so the first one declared is the outermost. *)
Lemma field_wrapped w p rf : compiles p rf -> forall k n args d inp pre a t post nm fs b,
  p n = Some d -> bind_params w (d_params d) args [] = Ok inp -> d_ty d = TCont None false (pre ++ (a, t) :: post) -> fa_xs (d_attr d) = [] ->
  Forall no_blen (pre ++ (a, t) :: post) -> fa_calc a = None -> fa_cond a = None -> leaf (a, t) = true ->
  encode w p rf (S k) n args (VStruct nm fs) = Ok b ->
  exists en v v' acts plain b1 b2 b3, scope_of w (fun y => lookup y inp) (flatten_items (pre ++ (a, t) :: post)) fs en /\
    lookup (fa_name a) fs = Some v /\
    active w (fun y => lookup y inp) (fun y => lookup y en) (fa_xs a) acts /\
    se_type w p rf (fun y => lookup y inp) None (sencode w p rf None k) en t v = Ok (plain, v') /\
    wrapped w acts plain b2 /\ b = b1 ++ b2 ++ b3.
Proof.
  intros C k n args d inp pre a t post nm fs b Hd Hi Ht Hx N Hca Hc Hl H.
  destruct (encode_struct w p rf C k n args d inp _ nm fs b Hd Hi Ht Hx H) as (en & vs & Sc & E).
  pose proof Hl as Hl'. unfold leaf in Hl'. cbn [fst snd] in Hl'. apply negb_true_iff, orb_false_iff in Hl' as (Hpd & Hct).
  rewrite map_app in E. cbn [map] in E. unfold se_item at 2 in E. cbn [fst snd] in E.
  apply se_items_split in E; [|change (a, t, se_complex w p rf (fun x => lookup x inp) None (sencode w p rf None k) a t) with (se_item w p rf (fun x => lookup x inp) None (sencode w p rf None k) (a, t)); rewrite <- (map_cons (se_item w p rf (fun x => lookup x inp) None (sencode w p rf None k))), <- map_app; apply items_no_blen; exact N].
  destruct E as (b1 & vs1 & v & b2 & vs2 & nn & b3 & vs3 & E1 & Hv & E2 & E3 & -> & ->).
  unfold se_field in E2. rewrite Hc in E2. destruct (se_xs_wrapped _ _ _ _ _ _ _ _ E2) as (acts & plain & A1 & A2 & A3). cbn [bind] in A2. bi A2 y Ey. destruct y as [b0 vs0]. apply Ok_inj in A2. injection A2 as <- <- _.
  rewrite se_complex_leaf in Ey by exact Hl. bi Ey z Ez. destruct z as [b' v']. apply Ok_inj in Ey. injection Ey as <- <-.
  exists en, v, v', acts, b', b1, b2, b3. split; [exact Sc|]. split.
  - assert (Hv' := Hv). rewrite Hct, Hpd in Hv'. specialize (Hv' eq_refl). destruct Sc as (S1 & _).
    destruct (S1 (a, t)) as (v0 & L1 & L2); [apply in_flat_leaf; [apply in_or_app; right; left; reflexivity|exact Hct]|exact Hca|exact Hpd|]. cbn [fst] in L1, L2. congruence.
  - split; [exact A1|]. split; [exact Ez|]. split; [exact A3|reflexivity].
Qed.
Theorem C40_written_last_first : forall w p rf, compiles p rf -> forall k n args d inp pre a t post nm fs b,
  p n = Some d -> bind_params w (d_params d) args [] = Ok inp -> d_ty d = TCont None false (pre ++ (a, t) :: post) -> fa_xs (d_attr d) = [] ->
  Forall no_blen (pre ++ (a, t) :: post) -> fa_calc a = None -> fa_cond a = None -> leaf (a, t) = true ->
  encode w p rf (S k) n args (VStruct nm fs) = Ok b ->
  exists en v v' acts plain b1 b2 b3, scope_of w (fun y => lookup y inp) (flatten_items (pre ++ (a, t) :: post)) fs en /\
    lookup (fa_name a) fs = Some v /\
    active w (fun y => lookup y inp) (fun y => lookup y en) (fa_xs a) acts /\
    se_type w p rf (fun y => lookup y inp) None (sencode w p rf None k) en t v = Ok (plain, v') /\
    wrapped w acts plain b2 /\ b = b1 ++ b2 ++ b3.
Proof. exact field_wrapped. Qed.
Print Assumptions C40_written_last_first.

(** C40, reading: the decoder undoes the last transform declared first as well - the
    innermost one instead of the outermost. *)
Lemma field_unwrapped w p rf : world_suffixing w -> compiles p rf -> forall k n args d inp pre a t post l v rest,
  p n = Some d -> bind_params w (d_params d) args [] = Ok inp -> d_ty d = TCont None false (pre ++ (a, t) :: post) -> fa_xs (d_attr d) = [] ->
  fa_cond a = None -> leaf (a, t) = true ->
  decode w p rf (S k) n args l = Ok (v, rest) ->
  exists vs1 vs2 x l1 acts plain r', v = VStruct (fa_name (d_attr d)) (vs1 ++ (fa_name a, x) :: vs2) /\
    active w (fun y => lookup y inp) (fun y => lookup y (rev vs1)) (rev (fa_xs a)) acts /\
    unwrapped w acts l1 plain /\
    sd_type w p rf (fun y => lookup y inp) (sdecode w p rf k) (rev vs1) t plain = Ok (x, r').
Proof.
  intros Hw C k n args d inp pre a t post l v rest Hd Hi Ht Hx Hc Hl H.
  destruct (decode_struct w p rf Hw C k n args d inp _ l v rest Hd Hi Ht Hx H) as (vs & -> & E).
  rewrite map_app in E. cbn [map] in E. apply sd_items_split in E. destruct E as (vs1 & l1 & vs2 & l2 & vs3 & E1 & E2 & E3 & ->). rewrite app_nil_r in *.
  unfold sd_field, sd_item in E2. cbn [fst snd] in E2. rewrite Hc in E2. destruct (sd_xs_unwrapped _ _ _ _ _ _ _ _ E2) as (acts & plain & r' & A1 & A2 & A3).
  rewrite sd_complex_leaf in A3 by exact Hl. bi A3 y Ey. destruct y as [x r0]. apply Ok_inj in A3. injection A3 as <- <-.
  exists vs1, vs3, x, l1, acts, plain, r0. split; [reflexivity|]. split; [exact A1|]. split; assumption.
Qed.
Theorem C40_read_last_first : forall w p rf, world_suffixing w -> compiles p rf -> forall k n args d inp pre a t post l v rest,
  p n = Some d -> bind_params w (d_params d) args [] = Ok inp -> d_ty d = TCont None false (pre ++ (a, t) :: post) -> fa_xs (d_attr d) = [] ->
  fa_cond a = None -> leaf (a, t) = true ->
  decode w p rf (S k) n args l = Ok (v, rest) ->
  exists vs1 vs2 x l1 acts plain r', v = VStruct (fa_name (d_attr d)) (vs1 ++ (fa_name a, x) :: vs2) /\
    active w (fun y => lookup y inp) (fun y => lookup y (rev vs1)) (rev (fa_xs a)) acts /\
    unwrapped w acts l1 plain /\
    sd_type w p rf (fun y => lookup y inp) (sdecode w p rf k) (rev vs1) t plain = Ok (x, r').
Proof. exact field_unwrapped. Qed.
Print Assumptions C40_read_last_first.

(** C40, partial: a pipeline is undone when the transforms that apply invert what they
    produce and commute with each other - in particular when at most one applies, or
    when they are all the same. *)
Definition inverts (w : world) (acts : list (string * list val)) : Prop :=
  forall n vs x y, In (n, vs) acts -> w_xenc w n vs x = Ok y -> w_xdec w n vs y = Ok (x, []).
Definition commute (w : world) (acts : list (string * list val)) : Prop :=
  forall n1 vs1 n2 vs2 x y z, In (n1, vs1) acts -> In (n2, vs2) acts -> w_xenc w n2 vs2 x = Ok y -> w_xenc w n1 vs1 y = Ok z ->
    exists y', w_xenc w n1 vs1 x = Ok y' /\ w_xenc w n2 vs2 y' = Ok z.
Lemma wrapped_snoc w n vs acts : forall plain mid b, w_xenc w n vs plain = Ok mid -> wrapped w acts mid b -> wrapped w (acts ++ [(n, vs)]) plain b.
Proof.
  induction acts as [|[n1 vs1] acts IH]; intros plain mid b E H; cbn [app].
  - inversion H; subst. econstructor; [constructor|exact E].
  - inversion H; subst. econstructor; [eapply IH; eassumption|assumption].
Qed.
Lemma wrapped_move w n vs : forall acts plain mid b, commute w ((n, vs) :: acts) -> wrapped w acts plain mid -> w_xenc w n vs mid = Ok b -> wrapped w (acts ++ [(n, vs)]) plain b.
Proof.
  induction acts as [|[n1 vs1] acts IH]; intros plain mid b Cm H E; inversion H as [|? ? ? ? mid0 ? H3 H5]; subst; cbn [app]; [econstructor; [constructor|exact E]|].
  destruct (Cm n vs n1 vs1 mid0 mid b (or_introl eq_refl) (or_intror (or_introl eq_refl)) H5 E) as (y' & E1 & E2).
  econstructor; [|exact E2]. eapply IH; [|exact H3|exact E1]. intros na va nb vb x y z Ia Ib. apply Cm; [destruct Ia as [<-|Ia]|destruct Ib as [<-|Ib]]; firstorder.
Qed.
Lemma wrapped_rev w acts : commute w acts -> forall plain b, wrapped w acts plain b -> wrapped w (rev acts) plain b.
Proof.
  induction acts as [|[n vs] acts IH]; intros Cm plain b H; inversion H as [|? ? ? ? mid0 ? H3 H5]; subst; [constructor|]. cbn [rev].
  assert (Cm' : commute w acts) by (intros na va nb vb x y z Ia Ib; apply Cm; right; assumption).
  apply IH in H3; [|exact Cm']. eapply wrapped_move; [|exact H3|exact H5]. intros na va nb vb x y z Ia Ib. apply Cm; [destruct Ia as [<-|Ia]; [left; reflexivity|right; apply in_rev; exact Ia]|destruct Ib as [<-|Ib]; [left; reflexivity|right; apply in_rev; exact Ib]].
Qed.
Lemma wrapped_unwrapped w acts : inverts w acts -> forall plain b, wrapped w acts plain b -> unwrapped w acts b plain.
Proof.
  induction acts as [|[n vs] acts IH]; intros I plain b H; inversion H as [|? ? ? ? mid0 ? H3 H5]; subst; [constructor|]. econstructor; [apply I; [left; reflexivity|exact H5]|]. apply IH; [|exact H3]. intros na va x y Ia. apply I. right. exact Ia.
Qed.
Lemma active_app w inp f xs1 xs2 a1 a2 : active w inp f xs1 a1 -> active w inp f xs2 a2 -> active w inp f (xs1 ++ xs2) (a1 ++ a2).
Proof. induction 1; intros H2; cbn [app]; [exact H2|eapply act_skip; eauto|apply act_use; eauto]. Qed.
Lemma active_rev w inp f xs a : active w inp f xs a -> active w inp f (rev xs) (rev a).
Proof. induction 1; cbn [rev]; [constructor| |]; [rewrite <- (app_nil_r (rev r))|]; apply active_app; auto; [eapply act_skip; eauto|apply act_use; auto]; constructor. Qed.
Lemma sd_xs_active {A} w inp en xs acts (k : list Z -> res ioerr (A * list Z)) plain a r' : active w inp (fun n => lookup n en) xs acts -> forall l, unwrapped w acts l plain -> k plain = Ok (a, r') ->
  exists rest, sd_xs w inp en xs k l = Ok (a, rest).
Proof.
  induction 1 as [|x xs r e Hc He Ha IH|x xs r vs Hc Hv Ha IH]; intros l U K; cbn [sd_xs].
  - inversion U; subst. eauto.
  - rewrite Hc. unfold ev. rewrite He. cbn [bind bool_of]. apply IH; assumption.
  - inversion U as [|? ? ? ? ? ? ? H4 H5]; subst. assert (E : (match x_cond x with Some e => let! v := ev w inp en e in bool_of v | None => Ok true end) = Ok (E := ioerr) true).
    { destruct (x_cond x) as [e|]; [|reflexivity]. unfold ev. rewrite (Hc e eq_refl). reflexivity. }
    rewrite E. cbn [bind]. change (mapM (ev w inp en)) with (mapM (eval w inp (fun n => lookup n en))). rewrite Hv. cbn [bind]. rewrite H4. cbn [bind]. destruct (IH _ H5 K) as (rest0 & E'). rewrite E'. cbn [bind]. eauto.
Qed.
Lemma active_det w inp f xs a : active w inp f xs a -> forall a', active w inp f xs a' -> a = a'.
Proof.
  induction 1 as [|x xs r e Hc He Ha IH|x xs r vs Hc Hv Ha IH]; intros a' A; inversion A as [|? ? ? e' Hc' He' Ha'|? ? ? vs' Hc' Hv' Ha']; subst; auto.
  - rewrite (Hc' e Hc) in He. discriminate He.
  - rewrite (Hc e' Hc') in He'. discriminate He'.
  - rewrite Hv in Hv'. apply Ok_inj in Hv'. subst vs'. f_equal. apply IH. exact Ha'.
Qed.
Lemma pipeline {A B} w inp en xs (plain b : list Z) (a : A) acts (k : list Z -> res ioerr (B * list Z)) v r' :
  active w inp (fun n => lookup n en) xs acts -> inverts w acts -> commute w acts ->
  se_xs w inp None en xs (Ok (plain, a)) = Ok (b, a) -> k plain = Ok (v, r') -> exists rest, sd_xs w inp en (rev xs) k b = Ok (v, rest).
Proof.
  intros Ac I Cm H K. destruct (se_xs_wrapped _ _ _ _ _ _ _ _ H) as (acts' & pl & A1 & A2 & A3). apply Ok_inj in A2. injection A2 as <-.
  pose proof (active_det _ _ _ _ _ A1 _ Ac) as ->. eapply sd_xs_active; [apply active_rev; exact A1| |exact K]. apply wrapped_unwrapped; [intros n vs x y Hi; apply I; apply in_rev; exact Hi|]. apply wrapped_rev; assumption.
Qed.
Theorem C40_commuting_pipeline_partial : forall (A B : Type) w inp en xs (plain b : list Z) (a : A) acts (k : list Z -> res ioerr (B * list Z)) v r',
  active w inp (fun n => lookup n en) xs acts -> inverts w acts -> commute w acts ->
  se_xs w inp None en xs (Ok (plain, a)) = Ok (b, a) -> k plain = Ok (v, r') -> exists rest, sd_xs w inp en (rev xs) k b = Ok (v, rest).
Proof. exact @pipeline. Qed.
Print Assumptions C40_commuting_pipeline_partial.

(** Two transforms that do not commute. *)
Definition xworld : world := {|
  w_chk := true; w_fty := prelude_fty; w_ufn := fun _ _ => Panic; w_fenc := pw_fenc; w_fdec := pw_fdec;
  w_xenc := fun n _ b => if String.eqb n "rev" then Ok (rev b) else if String.eqb n "push" then Ok (7 :: b) else Panic;
  w_xdec := fun n _ b => if String.eqb n "rev" then Ok (rev b, []) else if String.eqb n "push" then match b with 7 :: r => Ok (r, []) | _ => Err EDecode end else Panic;
  w_fill := fun n => n |}.
Lemma xworld_inverts acts : inverts xworld acts.
Proof.
  intros n vs x y _ H. cbn in *. destruct (String.eqb n "rev"); [apply Ok_inj in H; subst y; rewrite rev_involutive; reflexivity|]. destruct (String.eqb n "push"); [|discriminate H]. apply Ok_inj in H. subst y. reflexivity.
Qed.
Definition xuse0 (n : string) : xuse := {| x_name := n; x_cond := None; x_args := [] |}.
Definition xprog (xs : list xuse) : list (string * decl) := [decl0 "T" (TCont None false [(withx "x" xs, TArr (be U8) LRest)])].
Definition xval : val := VStruct "T" [("x", u8s [1; 2; 3])].
Definition rt (w : world) (l : list (string * decl)) (v : val) : res ioerr (val * list Z) := let! b := encode w (prog l) 9 3 "T" [] v in decode w (prog l) 9 3 "T" [] b.
Lemma rev_commute : commute xworld [("rev", []); ("rev", [])].
Proof. intros n1 vs1 n2 vs2 x y z H1 H2 E1 E2. assert (n1 = "rev" /\ n2 = "rev") as (-> & ->) by (cbn in *; intuition congruence). cbn in *. apply Ok_inj in E1. apply Ok_inj in E2. subst. eauto. Qed.
Example C40_nonvacuous : prog_ok (xprog [xuse0 "rev"]) 9 (prelude_marks ["T"]) = true /\
  rt xworld (xprog [xuse0 "rev"]) xval = Ok (xval, []) /\ rt xworld (xprog [xuse0 "push"]) xval = Ok (xval, []) /\
  (active xworld (fun _ => None) (fun n => lookup n []) [xuse0 "rev"; xuse0 "rev"] [("rev", []); ("rev", [])]) /\
  rt xworld (xprog [xuse0 "rev"; xuse0 "rev"]) xval = Ok (xval, []).
Proof. split; [vm_compute; reflexivity|]. split; [vm_compute; reflexivity|]. split; [vm_compute; reflexivity|]. split; [|vm_compute; reflexivity]. repeat (apply (act_use _ _ _ (xuse0 "rev")); [discriminate|reflexivity|]). constructor. Qed.
(** C40 as stated fails: [x: u8[..] -> rev -> push], each of which round-trips alone. *)
Theorem C40_two_transforms_refuted : (forall acts, inverts xworld acts) /\
  encode xworld (prog (xprog [xuse0 "rev"; xuse0 "push"])) 9 3 "T" [] xval = Ok (rev (7 :: [1; 2; 3])) /\
  rt xworld (xprog [xuse0 "rev"; xuse0 "push"]) xval = Err EDecode.
Proof. split; [exact xworld_inverts|]. split; vm_compute; reflexivity. Qed.
Print Assumptions C40_two_transforms_refuted.

(** ** C41 *)

(** Specification: the variant [(a, t)] is the first whose condition holds (conditions
    may only use the type's parameters). *)
Definition holds (w : world) (inp : string -> option val) (a : fattr) : Prop := forall e, fa_cond a = Some e -> eval w inp (fun n => lookup n []) e = Ok (VBool true).
Definition fails (w : world) (inp : string -> option val) (a : fattr) : Prop := exists e, fa_cond a = Some e /\ eval w inp (fun n => lookup n []) e = Ok (VBool false).
Definition first_match (w : world) (inp : string -> option val) (items : list (fattr * ty)) (a : fattr) (t : ty) : Prop :=
  exists pre post, items = pre ++ (a, t) :: post /\ Forall (fun f => fails w inp (fst f)) pre /\ holds w inp a.

Lemma vcond_inv w inp a b : (match fa_cond a with Some e => let! v := ev w inp [] e in bool_of v | None => Ok true end) = Ok (E := ioerr) b -> if b then holds w inp a else fails w inp a.
Proof.
  intros H. destruct (fa_cond a) as [e|] eqn:Ee; [|apply Ok_inj in H; subst b; intros e He; congruence]. bi H v Ev. destruct v as [| b0 | | | | | | | | | | |]; try discriminate H. cbn in H. apply Ok_inj in H. subst b0.
  destruct b; [intros e' He; rewrite Ee in He; injection He as <-; exact Ev|exists e; split; [exact Ee|exact Ev]].
Qed.
Lemma vcond_holds w inp a : holds w inp a -> (match fa_cond a with Some e => let! v := ev w inp [] e in bool_of v | None => Ok true end) = Ok (E := ioerr) true.
Proof. intros H. destruct (fa_cond a) as [e|] eqn:Ee; [|reflexivity]. unfold ev. rewrite (H e Ee). reflexivity. Qed.
Lemma vcond_fails w inp a : fails w inp a -> (match fa_cond a with Some e => let! v := ev w inp [] e in bool_of v | None => Ok true end) = Ok (E := ioerr) false.
Proof. intros (e & Ee & H). rewrite Ee. unfold ev. rewrite H. reflexivity. Qed.
Lemma first_match_cons w inp f items a t : fails w inp (fst f) -> first_match w inp items a t -> first_match w inp (f :: items) a t.
Proof. intros Hf (pre & post & -> & F & Hh). exists (f :: pre), post. split; [reflexivity|]. split; [constructor; assumption|exact Hh]. Qed.


Lemma variants_read w p rf inp rec nm : forall items l v rest, Forall (fun f => fa_pad (fst f) = false) items -> sd_variants w p rf inp rec nm items l = Ok (v, rest) ->
  exists a t us, first_match w inp items a t /\ sd_xs w inp [] (rev (fa_xs a)) (sd_complex w p rf inp rec a t []) l = Ok (us, rest) /\
    (is_cont t = true -> v = VVariantS nm (fa_name a) us) /\
    (is_cont t = false -> exists x, us = [(fa_name a, x)] /\ v = VVariant nm (fa_name a) x /\ (fa_xs a = [] -> sd_type w p rf inp rec [] t l = Ok (x, rest))).
Proof.
  induction items as [|[a t] items IH]; intros l v rest P H; [discriminate H|]. inversion P as [|? ? P1 P2]; subst. cbn [fst] in P1. cbn [sd_variants] in H. bi H b Eb. pose proof (vcond_inv _ _ _ _ Eb) as Hb. destruct b.
  - bi H y Ey. destruct y as [us r]. exists a, t, us. split; [exists [], items; auto|]. destruct (is_cont t) eqn:Ht.
    + apply Ok_inj in H. injection H as <- <-. split; [exact Ey|]. split; [reflexivity|discriminate].
    + destruct us as [|[y x] tl]; [discriminate H|]. apply Ok_inj in H. injection H as <- <-. split; [exact Ey|]. split; [discriminate|]. intros _. exists x.
      assert (Hl : leaf (a, t) = true) by (unfold leaf; cbn [fst snd]; rewrite P1, Ht; reflexivity).
      destruct (sd_xs_inv _ _ _ _ _ _ _ _ Ey) as (l' & r' & K). rewrite sd_complex_leaf in K by exact Hl. bi K z Ez. destruct z as [x0 r0]. apply Ok_inj in K. injection K as <- <- <- <-. split; [reflexivity|]. split; [reflexivity|].
      intros Hx. rewrite Hx in Ey. cbn [rev sd_xs] in Ey. rewrite sd_complex_leaf in Ey by exact Hl. bi Ey z Ez'. destruct z as [x1 r1]. apply Ok_inj in Ey. injection Ey as <- <-. exact Ez'.
  - destruct (IH _ _ _ P2 H) as (a' & t' & us & F & R). exists a', t', us. split; [apply first_match_cons; assumption|exact R].
Qed.
Lemma tagged_read w p rf : world_suffixing w -> compiles p rf -> forall k n args d inp items l v rest,
  p n = Some d -> bind_params w (d_params d) args [] = Ok inp -> d_ty d = TCont None true items -> fa_xs (d_attr d) = [] -> Forall (fun f => fa_pad (fst f) = false) items ->
  decode w p rf (S k) n args l = Ok (v, rest) ->
  exists a t us, first_match w (fun y => lookup y inp) items a t /\
    sd_xs w (fun y => lookup y inp) [] (rev (fa_xs a)) (sd_complex w p rf (fun y => lookup y inp) (sdecode w p rf k) a t []) l = Ok (us, rest) /\
    (is_cont t = true -> v = VVariantS (fa_name (d_attr d)) (fa_name a) us) /\
    (is_cont t = false -> exists x, us = [(fa_name a, x)] /\ v = VVariant (fa_name (d_attr d)) (fa_name a) x /\
       (fa_xs a = [] -> sd_type w p rf (fun y => lookup y inp) (sdecode w p rf k) [] t l = Ok (x, rest))).
Proof.
  intros Hw C k n args d inp items l v rest Hd Hi Ht Hx P. rewrite (decode_top w p rf Hw C k n args d inp l Hd Hi). unfold sd_top. rewrite Ht, Hx. cbn [rev sd_xs sd_limit]. apply variants_read. exact P.
Qed.
(** C41, reading: the first variant whose condition holds is the one read. *)
Theorem C41_reads_first_match : forall w p rf, world_suffixing w -> compiles p rf -> forall k n args d inp items l v rest,
  p n = Some d -> bind_params w (d_params d) args [] = Ok inp -> d_ty d = TCont None true items -> fa_xs (d_attr d) = [] -> Forall (fun f => fa_pad (fst f) = false) items ->
  decode w p rf (S k) n args l = Ok (v, rest) ->
  exists a t us, first_match w (fun y => lookup y inp) items a t /\
    sd_xs w (fun y => lookup y inp) [] (rev (fa_xs a)) (sd_complex w p rf (fun y => lookup y inp) (sdecode w p rf k) a t []) l = Ok (us, rest) /\
    (is_cont t = true -> v = VVariantS (fa_name (d_attr d)) (fa_name a) us) /\
    (is_cont t = false -> exists x, us = [(fa_name a, x)] /\ v = VVariant (fa_name (d_attr d)) (fa_name a) x /\
       (fa_xs a = [] -> sd_type w p rf (fun y => lookup y inp) (sdecode w p rf k) [] t l = Ok (x, rest))).
Proof. exact tagged_read. Qed.
Print Assumptions C41_reads_first_match.
(** ... and without such a variant decoding fails. *)
Lemma variants_none w p rf inp rec nm : forall items l, Forall (fun f => fails w inp (fst f)) items -> sd_variants w p rf inp rec nm items l = Err EDecode.
Proof. induction items as [|[a t] items IH]; intros l F; [reflexivity|]. inversion F as [|? ? F1 F2]; subst. cbn [sd_variants]. cbn [fst] in F1. rewrite (vcond_fails _ _ _ F1). cbn [bind]. apply IH. exact F2. Qed.
Lemma tagged_none w p rf : world_suffixing w -> compiles p rf -> forall k n args d inp items l,
  p n = Some d -> bind_params w (d_params d) args [] = Ok inp -> d_ty d = TCont None true items -> fa_xs (d_attr d) = [] ->
  Forall (fun f => fails w (fun y => lookup y inp) (fst f)) items -> decode w p rf (S k) n args l = Err EDecode.
Proof.
  intros Hw C k n args d inp items l Hd Hi Ht Hx F. rewrite (decode_top w p rf Hw C k n args d inp l Hd Hi). unfold sd_top. rewrite Ht, Hx. cbn [rev sd_xs sd_limit]. apply variants_none. exact F.
Qed.
Theorem C41_no_match_no_value : forall w p rf, world_suffixing w -> compiles p rf -> forall k n args d inp items l,
  p n = Some d -> bind_params w (d_params d) args [] = Ok inp -> d_ty d = TCont None true items -> fa_xs (d_attr d) = [] ->
  Forall (fun f => fails w (fun y => lookup y inp) (fst f)) items -> decode w p rf (S k) n args l = Err EDecode.
Proof. exact tagged_none. Qed.
Print Assumptions C41_no_match_no_value.

(** C41, writing: the variant the value holds is written when it is the first whose
    condition holds, refused when another one is; partial: nothing is written, without an
    error, when no condition holds. *)
Definition variant_name (v : val) : option string := match v with VVariant _ d _ | VVariantS _ d _ => Some d | _ => None end.
Lemma variants_write w p rf inp m erec nm : forall items v b v', se_variants w p rf inp m erec nm items v = Ok (b, v') ->
  (Forall (fun f => fails w inp (fst f)) items /\ b = []) \/
  exists a t, first_match w inp items a t /\ variant_name v = Some (fa_name a) /\
    (forall n d x, v = VVariant n d x -> is_cont t = false /\ exists us, se_xs w inp m [] (fa_xs a) (se_complex w p rf inp m erec a t [] x false false) = Ok (b, us)) /\
    (forall n d fs, v = VVariantS n d fs -> exists len tg sub en us, t = TCont len tg sub /\ se_items w inp m (map (se_item w p rf inp m erec) sub) en false [] [] None = Ok (b, us)).
Proof.
  induction items as [|[a t] items IH]; intros v b v' H; cbn [se_variants] in H; [left; split; [constructor|]; unfold refuse in H; destruct m; [discriminate H|]; apply Ok_inj in H; congruence|].
  bi H c Ec. pose proof (vcond_inv _ _ _ _ Ec) as Hc. destruct c.
  - right. exists a, t. split; [exists [], items; auto|]. destruct v as [| | | | | | | | | | |n d x|n d fs]; try discriminate H.
    + destruct (String.eqb nm n); [|discriminate H]. destruct (String.eqb_spec (fa_name a) d) as [->|]; [|discriminate H]. destruct (is_cont t); [discriminate H|]. bi H y Ey. destruct y as [b0 us]. destruct us as [|[y0 x'] us]; [discriminate H|]. apply Ok_inj in H. injection H as <- <-.
      split; [reflexivity|]. split; [|discriminate]. intros ? ? ? E. injection E as <- <- <-. split; [reflexivity|]. eexists. exact Ey.
    + destruct (String.eqb nm n); [|discriminate H]. destruct (String.eqb_spec (fa_name a) d) as [->|]; [|discriminate H]. destruct t as [| | | | | | | | |len tg sub]; try discriminate H. bi H en E1. bi H en2 E2. bi H y Ey. destruct y as [b0 us].
      split; [reflexivity|]. split; [discriminate|]. intros ? ? ? E. injection E as <- <- <-. exists len, tg, sub, en2, us. split; [reflexivity|]. unfold refuse in H. destruct m; [destruct (negb (is_some len) && _); [|discriminate H]|]; apply Ok_inj in H; injection H as <- <-; exact Ey.
  - destruct (IH _ _ _ H) as [(F & ->)|(a' & t' & F & R)]; [left; split; [constructor; assumption|reflexivity]|right]. exists a', t'. split; [apply first_match_cons; assumption|exact R].
Qed.
Lemma tagged_write w p rf : compiles p rf -> forall k n args d inp items v b,
  p n = Some d -> bind_params w (d_params d) args [] = Ok inp -> d_ty d = TCont None true items -> fa_xs (d_attr d) = [] -> Forall (fun f => fa_pad (fst f) = false) items ->
  encode w p rf (S k) n args v = Ok b ->
  (Forall (fun f => fails w (fun y => lookup y inp) (fst f)) items /\ b = []) \/
  exists a t, first_match w (fun y => lookup y inp) items a t /\ variant_name v = Some (fa_name a) /\
    (forall n d x, v = VVariant n d x -> is_cont t = false /\ (fa_xs a = [] -> exists x', se_type w p rf (fun y => lookup y inp) None (sencode w p rf None k) [] t x = Ok (b, x'))) /\
    (forall n d fs, v = VVariantS n d fs -> exists len tg sub en us, t = TCont len tg sub /\
       se_items w (fun y => lookup y inp) None (map (se_item w p rf (fun y => lookup y inp) None (sencode w p rf None k)) sub) en false [] [] None = Ok (b, us)).
Proof.
  intros C k n args d inp items v b Hd Hi Ht Hx P H. rewrite (encode_top w p rf C k n args d inp v Hd Hi) in H. bi H y Ey. destruct y as [b0 v0]. apply Ok_inj in H. subst b0. unfold se_top in Ey. rewrite Ht, Hx in Ey. cbn [se_xs se_limit] in Ey.
  destruct (variants_write _ _ _ _ _ _ _ _ _ _ _ Ey) as [L|(a & t & F & V & A1 & A2)]; [left; exact L|right]. exists a, t. split; [exact F|]. split; [exact V|]. split; [|exact A2].
  intros n0 d0 x ->. destruct (A1 _ _ _ eq_refl) as (Hct & us & E). split; [exact Hct|]. intros Hxs. rewrite Hxs in E. cbn [se_xs] in E. destruct F as (pre & post & -> & _ & _). apply Forall_app in P as (_ & P). inversion P as [|? ? P1 _]; subst. cbn [fst] in P1.
  rewrite se_complex_leaf in E by (unfold leaf; cbn [fst snd]; rewrite P1, Hct; reflexivity). bi E z Ez. destruct z as [b1 x']. apply Ok_inj in E. injection E as <- <-. eexists. exact Ez.
Qed.
Theorem C41_writes_held_variant_partial : forall w p rf, compiles p rf -> forall k n args d inp items v b,
  p n = Some d -> bind_params w (d_params d) args [] = Ok inp -> d_ty d = TCont None true items -> fa_xs (d_attr d) = [] -> Forall (fun f => fa_pad (fst f) = false) items ->
  encode w p rf (S k) n args v = Ok b ->
  (Forall (fun f => fails w (fun y => lookup y inp) (fst f)) items /\ b = []) \/
  exists a t, first_match w (fun y => lookup y inp) items a t /\ variant_name v = Some (fa_name a) /\
    (forall n d x, v = VVariant n d x -> is_cont t = false /\ (fa_xs a = [] -> exists x', se_type w p rf (fun y => lookup y inp) None (sencode w p rf None k) [] t x = Ok (b, x'))) /\
    (forall n d fs, v = VVariantS n d fs -> exists len tg sub en us, t = TCont len tg sub /\
       se_items w (fun y => lookup y inp) None (map (se_item w p rf (fun y => lookup y inp) None (sencode w p rf None k)) sub) en false [] [] None = Ok (b, us)).
Proof. exact tagged_write. Qed.
Print Assumptions C41_writes_held_variant_partial.
Lemma variants_wrong w p rf inp erec nm a t : forall items v d, first_match w inp items a t -> variant_name v = Some d -> fa_name a <> d ->
  (forall n x, v = VVariant n d x -> n = nm) -> (forall n x, v = VVariantS n d x -> n = nm) -> se_variants w p rf inp None erec nm items v = Err EEncode.
Proof.
  intros items v d (pre & post & -> & F & Hh) Hv Hn N1 N2. induction F as [|[a0 t0] pre F1 F2 IH]; cbn [app se_variants].
  - rewrite (vcond_holds _ _ _ Hh). cbn [bind]. apply String.eqb_neq in Hn. destruct v as [| | | | | | | | | | |n d0 x|n d0 x]; try discriminate Hv; cbn in Hv; injection Hv as ->; [rewrite (N1 _ _ eq_refl)|rewrite (N2 _ _ eq_refl)]; rewrite String.eqb_refl, Hn; reflexivity.
  - cbn [fst] in F1. rewrite (vcond_fails _ _ _ F1). cbn [bind]. exact IH.
Qed.
Lemma tagged_wrong w p rf : compiles p rf -> forall k n args d inp items a t v vn,
  p n = Some d -> bind_params w (d_params d) args [] = Ok inp -> d_ty d = TCont None true items -> fa_xs (d_attr d) = [] ->
  first_match w (fun y => lookup y inp) items a t -> fa_name a <> vn -> (exists x, v = VVariant (fa_name (d_attr d)) vn x) \/ (exists x, v = VVariantS (fa_name (d_attr d)) vn x) ->
  encode w p rf (S k) n args v = Err EEncode.
Proof.
  intros C k n args d inp items a t v vn Hd Hi Ht Hx F Hn Hv. rewrite (encode_top w p rf C k n args d inp v Hd Hi). unfold se_top. rewrite Ht, Hx. cbn [se_xs se_limit].
  rewrite (variants_wrong w p rf _ _ _ a t items v vn F); [reflexivity| |exact Hn| |]; destruct Hv as [(x & ->)|(x & ->)]; try reflexivity; congruence.
Qed.
Theorem C41_other_variant_refused : forall w p rf, compiles p rf -> forall k n args d inp items a t v vn,
  p n = Some d -> bind_params w (d_params d) args [] = Ok inp -> d_ty d = TCont None true items -> fa_xs (d_attr d) = [] ->
  first_match w (fun y => lookup y inp) items a t -> fa_name a <> vn -> (exists x, v = VVariant (fa_name (d_attr d)) vn x) \/ (exists x, v = VVariantS (fa_name (d_attr d)) vn x) ->
  encode w p rf (S k) n args v = Err EEncode.
Proof. exact tagged_wrong. Qed.
Print Assumptions C41_other_variant_refused.

Example C41_nonvacuous : compiles sample 20 /\
  decode prelude_world sample 20 5 "Msg" [VInt U8 1] [1; 2; 3] = Ok (VVariant "Msg" "Small" (VInt U16 258), [3]) /\
  encode prelude_world sample 20 5 "Msg" [VInt U8 2] (VVariantS "Msg" "Pair" [("x", VInt U8 9); ("y", VEnum kind_def (VNamed "Ping"))]) = Ok [9; 1] /\
  encode prelude_world sample 20 5 "Msg" [VInt U8 2] (VVariant "Msg" "Small" (VInt U16 258)) = Err EEncode.
Proof. split; [exact (proj2 (prog_ok_compiles _ _ _ sample_ok))|]. repeat split; vm_compute; reflexivity. Qed.

(** C41 as stated fails: when no condition holds the encoder writes nothing and reports
    success, although the decoder refuses; and the transforms and the length of a
    container variant are ignored by the encoder but not by the decoder. *)
Definition tag_prog : list (string * decl) :=
  [declp "T" [{| pm_name := "tag"; pm_default := None |}] (TCont None true [(cond "A" (EBin OEq (EInput "tag" ty_u8) (lit8 1)), be U16)])].
Theorem C41_no_match_encodes_refuted : compiles (prog tag_prog) 9 /\
  encode prelude_world (prog tag_prog) 9 3 "T" [VInt U8 5] (VVariant "T" "A" (VInt U16 258)) = Ok [] /\
  decode prelude_world (prog tag_prog) 9 3 "T" [VInt U8 5] [1; 2] = Err EDecode.
Proof. split; [apply (prog_ok_compiles tag_prog 9 (prelude_marks [])); vm_compute; reflexivity|]. split; vm_compute; reflexivity. Qed.
Print Assumptions C41_no_match_encodes_refuted.
Definition tagx_prog : list (string * decl) :=
  [decl0 "T" (TCont None true [(withx "A" [xuse0 "push"], TCont None false [(fld "x", be U8)])])].
Theorem C41_variant_transform_refuted :
  encode xworld (prog tagx_prog) 9 3 "T" [] (VVariantS "T" "A" [("x", VInt U8 1)]) = Ok [1] /\
  decode xworld (prog tagx_prog) 9 3 "T" [] [1] = Err EDecode /\
  decode xworld (prog tagx_prog) 9 3 "T" [] [7; 1] = Ok (VVariantS "T" "A" [("x", VInt U8 1)], []).
Proof. repeat split; vm_compute; reflexivity. Qed.
Print Assumptions C41_variant_transform_refuted.

(** ** C42 *)

(** C42, writing: [.pad: e] contributes exactly as many zero bytes as [e] says, between
    the fields before and after.  (A pad directive has no condition, transform or formula:
    semantics/convert/type_/container.rs:93-125.) *)
Lemma pad_write w p rf : compiles p rf -> forall k n args d inp pre a el e post nm fs b,
  p n = Some d -> bind_params w (d_params d) args [] = Ok inp -> d_ty d = TCont None false (pre ++ (a, TArr el (LFixed e)) :: post) -> fa_xs (d_attr d) = [] ->
  Forall no_blen (pre ++ (a, TArr el (LFixed e)) :: post) -> fa_pad a = true -> fa_calc a = None -> fa_cond a = None -> fa_xs a = [] ->
  encode w p rf (S k) n args (VStruct nm fs) = Ok b ->
  exists en b1 b3 v c vs1 vs3, scope_of w (fun y => lookup y inp) (flatten_items (pre ++ (a, TArr el (LFixed e)) :: post)) fs en /\
    eval w (fun y => lookup y inp) (fun y => lookup y en) e = Ok v /\ len_of v = Ok c /\ b = b1 ++ repeat 0 c ++ b3 /\
    se_items w (fun y => lookup y inp) None (map (se_item w p rf (fun y => lookup y inp) None (sencode w p rf None k)) pre) en false [] [] None = Ok (b1, vs1) /\
    se_items w (fun y => lookup y inp) None (map (se_item w p rf (fun y => lookup y inp) None (sencode w p rf None k)) post) en false [] [] None = Ok (b3, vs3).
Proof.
  intros C k n args d inp pre a el e post nm fs b Hd Hi Ht Hx N Hpd Hca Hc Hxs H.
  destruct (encode_struct w p rf C k n args d inp _ nm fs b Hd Hi Ht Hx H) as (en & vs & Sc & E).
  assert (N' := items_no_blen w p rf (fun x => lookup x inp) None (sencode w p rf None k) _ N).
  rewrite map_app in E, N'. cbn [map] in E, N'. unfold se_item at 2 in E. unfold se_item at 2 in N'. cbn [fst snd] in E, N'. apply se_items_split in E; [|exact N'].
  destruct E as (b1 & vs1 & v & b2 & vs2 & nn & b3 & vs3 & E1 & _ & E2 & E3 & -> & ->).
  unfold se_field in E2. rewrite Hc, Hxs in E2. cbn [se_xs bind se_complex] in E2. rewrite Hpd in E2. bi E2 y Ey. destruct y as [b0 us]. apply Ok_inj in E2. injection E2 as -> <- _. bi Ey x Ex. bi Ey c Ec. apply Ok_inj in Ey. injection Ey as <- <-.
  exists en, b1, b3, x, c, vs1, vs3. split; [exact Sc|]. split; [exact Ex|]. split; [exact Ec|]. split; [reflexivity|]. split; assumption.
Qed.
Theorem C42_pad_written : forall w p rf, compiles p rf -> forall k n args d inp pre a el e post nm fs b,
  p n = Some d -> bind_params w (d_params d) args [] = Ok inp -> d_ty d = TCont None false (pre ++ (a, TArr el (LFixed e)) :: post) -> fa_xs (d_attr d) = [] ->
  Forall no_blen (pre ++ (a, TArr el (LFixed e)) :: post) -> fa_pad a = true -> fa_calc a = None -> fa_cond a = None -> fa_xs a = [] ->
  encode w p rf (S k) n args (VStruct nm fs) = Ok b ->
  exists en b1 b3 v c vs1 vs3, scope_of w (fun y => lookup y inp) (flatten_items (pre ++ (a, TArr el (LFixed e)) :: post)) fs en /\
    eval w (fun y => lookup y inp) (fun y => lookup y en) e = Ok v /\ len_of v = Ok c /\ b = b1 ++ repeat 0 c ++ b3 /\
    se_items w (fun y => lookup y inp) None (map (se_item w p rf (fun y => lookup y inp) None (sencode w p rf None k)) pre) en false [] [] None = Ok (b1, vs1) /\
    se_items w (fun y => lookup y inp) None (map (se_item w p rf (fun y => lookup y inp) None (sencode w p rf None k)) post) en false [] [] None = Ok (b3, vs3).
Proof. exact pad_write. Qed.
Print Assumptions C42_pad_written.

(** C42, reading: exactly that many bytes are skipped, whatever they hold, and the
    fields before and after are the whole value. *)
Lemma pad_read w p rf : world_suffixing w -> compiles p rf -> forall k n args d inp pre a el e post l v rest,
  p n = Some d -> bind_params w (d_params d) args [] = Ok inp -> d_ty d = TCont None false (pre ++ (a, TArr el (LFixed e)) :: post) -> fa_xs (d_attr d) = [] ->
  fa_pad a = true -> fa_cond a = None -> fa_xs a = [] ->
  decode w p rf (S k) n args l = Ok (v, rest) ->
  exists vs1 vs3 l1 skipped l2 lv c, v = VStruct (fa_name (d_attr d)) (vs1 ++ vs3) /\
    sd_items w (fun y => lookup y inp) (map (sd_item w p rf (fun y => lookup y inp) (sdecode w p rf k)) pre) [] l = Ok (vs1, l1) /\
    eval w (fun y => lookup y inp) (fun y => lookup y (rev vs1)) e = Ok lv /\ len_of lv = Ok c /\ l1 = skipped ++ l2 /\ List.length skipped = c /\
    sd_items w (fun y => lookup y inp) (map (sd_item w p rf (fun y => lookup y inp) (sdecode w p rf k)) post) (rev vs1) l2 = Ok (vs3, rest).
Proof.
  intros Hw C k n args d inp pre a el e post l v rest Hd Hi Ht Hx Hpd Hc Hxs H.
  destruct (decode_struct w p rf Hw C k n args d inp _ l v rest Hd Hi Ht Hx H) as (vs & -> & E).
  rewrite map_app in E. cbn [map] in E. apply sd_items_split in E. destruct E as (vs1 & l1 & vs2 & l2 & vs3 & E1 & E2 & E3 & ->). rewrite app_nil_r in *.
  unfold sd_field, sd_item in E2. cbn [fst snd] in E2. rewrite Hc, Hxs in E2. cbn [rev sd_xs sd_complex] in E2. rewrite Hpd in E2. bi E2 x Ex. bi E2 c Ec. bi E2 y Ey. destruct y as [sk r]. apply Ok_inj in E2. injection E2 as <- <-.
  cbn [rev app] in E3. apply read_exact_ok in Ey as (-> & Hlen).
  exists vs1, vs3, (sk ++ r), sk, r, x, c. repeat split; assumption.
Qed.
Theorem C42_pad_read : forall w p rf, world_suffixing w -> compiles p rf -> forall k n args d inp pre a el e post l v rest,
  p n = Some d -> bind_params w (d_params d) args [] = Ok inp -> d_ty d = TCont None false (pre ++ (a, TArr el (LFixed e)) :: post) -> fa_xs (d_attr d) = [] ->
  fa_pad a = true -> fa_cond a = None -> fa_xs a = [] ->
  decode w p rf (S k) n args l = Ok (v, rest) ->
  exists vs1 vs3 l1 skipped l2 lv c, v = VStruct (fa_name (d_attr d)) (vs1 ++ vs3) /\
    sd_items w (fun y => lookup y inp) (map (sd_item w p rf (fun y => lookup y inp) (sdecode w p rf k)) pre) [] l = Ok (vs1, l1) /\
    eval w (fun y => lookup y inp) (fun y => lookup y (rev vs1)) e = Ok lv /\ len_of lv = Ok c /\ l1 = skipped ++ l2 /\ List.length skipped = c /\
    sd_items w (fun y => lookup y inp) (map (sd_item w p rf (fun y => lookup y inp) (sdecode w p rf k)) post) (rev vs1) l2 = Ok (vs3, rest).
Proof. exact pad_read. Qed.
Print Assumptions C42_pad_read.

(** C42 over a whole type: padding never disturbs the round trip (an instance of C31,
    with two pads). *)
Definition pads : list (string * decl) :=
  [decl0 "T" (TCont None false [(fld "n", be U8); (pad "_pad0", TArr (be U8) (LFixed (ECast (EField "n" ty_u8) ty_u64))); (fld "x", be U16); (pad "_pad1", TArr (be U8) (LFixed (lit 1))); (fld "y", be U8)])].
Example C42_nonvacuous : prog_ok pads 9 (prelude_marks []) = true /\
  encode prelude_world (prog pads) 9 3 "T" [] (VStruct "T" [("n", VInt U8 2); ("x", VInt U16 258); ("y", VInt U8 9)]) = Ok [2; 0; 0; 1; 2; 0; 9] /\
  decode prelude_world (prog pads) 9 3 "T" [] [2; 77; 78; 1; 2; 79; 9; 5] = Ok (VStruct "T" [("n", VInt U8 2); ("x", VInt U16 258); ("y", VInt U8 9)], [5]).
Proof. repeat split; vm_compute; reflexivity. Qed.
