(** The code generators succeed exactly on the declarations of GenSpec.v. *)
From Verif Require Import Decode Encode EncWf GenSpec DecRef.
From Coq Require Import Lia.
Open Scope string_scope. Open Scope Z_scope. Open Scope list_scope.

(** What a generator does from a context: it succeeds iff [b], and then [Q]. *)
Definition at_ {I C A} (c : C) (m : gen I C A) (b : bool) (Q : A -> C -> Prop) : Prop :=
  match m c with Some (_, a, c') => b = true /\ Q a c' | None => b = false end.
Lemma at_ret {I C A} (c : C) (a : A) (Q : A -> C -> Prop) : Q a c -> at_ (I := I) c (gret a) true Q.
Proof. intros H. split; [reflexivity|exact H]. Qed.
Lemma at_bind {I C A B} (c : C) (m : gen I C A) (f : A -> gen I C B) b1 b2 Q1 Q2 :
  at_ c m b1 Q1 -> (forall a c', Q1 a c' -> at_ c' (f a) b2 Q2) -> at_ c (gbind m f) (b1 && b2) Q2.
Proof.
  unfold at_, gbind. intros H K. destruct (m c) as [[[i a] c']|]; [|rewrite H; reflexivity]. destruct H as [-> H]. specialize (K a c' H).
  destruct (f a c') as [[[i2 b] c2]|]; cbn [andb]; [exact K|exact K].
Qed.
Lemma at_bindt {I C A B} (c : C) (m : gen I C A) (f : A -> gen I C B) b2 Q1 Q2 :
  at_ c m true Q1 -> (forall a c', Q1 a c' -> at_ c' (f a) b2 Q2) -> at_ c (gbind m f) b2 Q2.
Proof. intros H K. exact (at_bind c m f true b2 Q1 Q2 H K). Qed.
Lemma at_tell {I C} (c : C) (i : I) (Q : unit -> C -> Prop) : Q tt c -> at_ c (tell i) true Q.
Proof. intros H. split; [reflexivity|exact H]. Qed.
Lemma at_tl {I C} (c : C) (i : I) : at_ c (tell i) true (fun _ c' => c' = c).
Proof. split; reflexivity. Qed.
Ltac tl := eapply at_bindt; [apply at_tl|]; intros ? ? ->.
Lemma at_block {I C A} (c : C) (m : gen I C A) b (Q : A -> C -> Prop) : at_ c m b Q -> at_ c (block m) b (fun x c' => Q (snd x) c').
Proof. unfold at_, block. destruct (m c) as [[[i a] c']|]; auto. Qed.
Lemma at_weak {I C A} (c : C) (m : gen I C A) b (Q Q' : A -> C -> Prop) : at_ c m b Q -> (forall a c', Q a c' -> Q' a c') -> at_ c m b Q'.
Proof. unfold at_. destruct (m c) as [[[i a] c']|]; [|auto]. intros [A1 A2] H. auto. Qed.
Lemma at_fail {I C A} (c : C) (Q : A -> C -> Prop) : at_ (I := I) c gfail false Q.
Proof. reflexivity. Qed.
Lemma at_some {I C A} (c : C) (m : gen I C A) b Q : at_ c m b Q -> (m c <> None <-> b = true).
Proof. unfold at_. destruct (m c) as [[[i a] c']|]; [intros [-> _]; split; [reflexivity|discriminate]|intros ->; split; [congruence|discriminate]]. Qed.

(** ** Decoders *)
(** The names the context knows. *)
Definition knows (c : dctx) (n : string) : Prop := lookup n (dc_map c) <> None.
Definition more (c c' : dctx) : Prop := forall n, knows c n -> knows c' n.
Lemma more_refl c : more c c. Proof. intros n H; exact H. Qed.
Lemma more_trans a b c : more a b -> more b c -> more a c. Proof. intros H K n N. exact (K n (H n N)). Qed.
Ltac mt := cbn beta in *; repeat (eapply more_trans; [eassumption|]); apply more_refl.
Notation any := (fun _ _ => True).

Lemma at_fresh c : at_ c dfresh true (fun _ c' => more c c').
Proof. split; [reflexivity|intros n H; exact H]. Qed.
Lemma at_deval c e : at_ c (deval e) true (fun _ c' => more c c').
Proof. split; [reflexivity|intros n H; exact H]. Qed.
Lemma at_devals l : forall c, at_ c (devals l) true (fun _ c' => more c c').
Proof.
  induction l as [|e l IH]; intros c; cbn [devals]; [apply at_ret, more_refl|]. eapply at_bindt; [apply at_deval|]. intros r c1 H1. eapply at_bindt; [apply IH|]. intros rs c2 H2. apply at_ret. mt.
Qed.
Ltac tk := first [apply at_tell | apply at_ret | apply at_fresh | apply at_deval | apply at_devals].
Section Dec.
  Variable p : program.
  Variable rf : nat.
  Lemma at_opt (o : option expr) c : at_ c (match o with Some e => do r <- deval e; gret (Some r) | None => gret None end) true (fun r c' => more c c' /\ is_some r = is_some o).
  Proof. destruct o as [e|]; [|apply at_ret; split; [apply more_refl|reflexivity]]. eapply at_bindt; [apply at_deval|]. intros r c1 H1. apply at_ret. split; [exact H1|reflexivity]. Qed.
  Lemma at_dtype : forall t src c, leaf_ok t = true -> at_ c (dec_type p rf t src) true (fun _ c' => more c c').
  Proof.
    induction t as [e| | | |d|d|n|n args|el l IH|len tg items _] using ty_ind'; intros src c H; cbn [dec_type leaf_ok] in *; try discriminate; (eapply at_bindt; [apply at_fresh|]; intros o c1 H1);
      try (tl; apply at_ret; exact H1).
    - eapply at_bindt; [apply at_devals|]. intros rs c2 H2. assert (H3 : more c c2) by (mt).
      destruct (p n) as [[a t ps]|]; [destruct t|]; (tl; apply at_ret; exact H3).
    - unfold dec_array. eapply at_bindt with (Q1 := fun _ c' => more c1 c').
      { destruct l; try (apply at_ret, more_refl). eapply at_bindt; [apply at_deval|]. intros r c2 H2. apply at_ret. exact H2. }
      intros term c2 H2. eapply at_bindt with (Q1 := fun _ c' => more c2 c').
      { destruct l; try (apply at_ret, more_refl). eapply at_bindt; [apply at_deval|]. intros r c3 H3. apply at_ret. exact H3. }
      intros len c3 H3. eapply at_bindt; [apply at_fresh|]. intros out c4 H4. assert (H5 : more c c4) by (mt).
      destruct (match term with None => kind_of (resolved p rf el) | Some _ => KLoop end).
      + tl. apply at_ret. exact H5.
      + tl. apply at_ret. exact H5.
      + eapply at_bindt.
        { apply at_block. eapply at_bindt; [apply IH, H|]. intros item c6 H6. apply at_tell with (Q := fun _ c' => more c4 c'). exact H6. }
        intros [body []] c6 H6. cbn [snd] in H6. tl. apply at_ret. exact (more_trans _ _ _ H5 H6).
  Qed.
  Lemma at_dxs : forall xs src c, at_ c (dec_xs xs src) true (fun _ c' => more c c').
  Proof.
    induction xs as [|x xs IH]; intros src c; cbn [dec_xs]; [apply at_ret, more_refl|]. eapply at_bindt; [apply at_opt|]. intros cond c1 [H1 _]. destruct cond as [cd|].
    - eapply at_bindt; [apply at_block, at_devals|]. intros [pre args] c2 H2. cbn [snd] in H2. eapply at_bindt; [apply at_fresh|]. intros s c3 H3. tl.
      eapply at_weak; [apply IH|]. intros ? c5 H5. mt.
    - eapply at_bindt; [apply at_devals|]. intros args c2 H2. eapply at_bindt; [apply at_fresh|]. intros s c3 H3. tl.
      eapply at_weak; [apply IH|]. intros ? c5 H5. mt.
  Qed.
  Lemma at_duncond k a src c b Q : (forall s c', more c c' -> at_ c' (k s) b (fun l c2 => more c' c2 /\ Q l c2)) -> at_ c (dec_uncond k a src) b (fun l c' => more c c' /\ Q l c').
  Proof.
    intros K. unfold dec_uncond. eapply at_bindt; [apply at_dxs|]. intros s c1 H1. eapply at_weak; [apply K, H1|]. intros l c2 [H2 H3]. split; [mt|exact H3].
  Qed.
  (** [v]: whether the field has a value. *)
  Definition valued (v : bool) (l : list nat) : Prop := v = match l with [] => false | _ => true end.
  Lemma at_dfield k a src c b v Q : fa_pad a = false -> (forall s c', more c c' -> at_ c' (k s) b (fun l c2 => more c' c2 /\ valued v l /\ Q l c2)) ->
    at_ c (dec_field k a src) (b && (negb (conditional a) || v)) (fun l c' => more c c' /\ valued v l /\ Q l c').
  Proof.
    intros P K. unfold dec_field, dec_cond, conditional. eapply at_bindt; [apply at_opt|]. intros cd c1 [H1 H2]. rewrite P. destruct cd as [cd|]; destruct (fa_cond a); try discriminate; cbn [is_some negb orb].
    - assert (K' : forall s c', more c1 c' -> at_ c' (k s) b (fun l c2 => more c' c2 /\ valued v l /\ Q l c2)) by (intros s c' H; apply K; mt).
      eapply at_bind; [apply at_block, (at_duncond k a src c1 b _ K')|]. intros [body l] c2 (H3 & H4 & H5). cbn [snd] in *.
      destruct l as [|r l]; unfold valued in H4; subst v; [apply at_fail|]. tl. apply at_ret. split; [mt|]. split; [reflexivity|exact H5].
    - rewrite andb_true_r. assert (K' : forall s c', more c1 c' -> at_ c' (k s) b (fun l c2 => more c' c2 /\ valued v l /\ Q l c2)) by (intros s c' H; apply K; mt).
      eapply at_weak; [apply (at_duncond k a src c1 b _ K')|]. intros l c2 (H3 & H4). split; [mt|exact H4].
  Qed.
  Lemma at_dfield_t k a src c b Q : fa_pad a = false -> (forall s c', more c c' -> at_ c' (k s) b (fun l c2 => more c' c2 /\ valued true l /\ Q l c2)) ->
    at_ c (dec_field k a src) b (fun l c' => more c c' /\ valued true l /\ Q l c').
  Proof. intros P K. pose proof (at_dfield k a src c b true Q P K) as H. rewrite orb_true_r, andb_true_r in H. exact H. Qed.
  Lemma at_dpad k a src c b Q : fa_pad a = true -> (forall s c', more c c' -> at_ c' (k s) b (fun l c2 => more c' c2 /\ Q l c2)) ->
    at_ c (dec_field k a src) b (fun l c' => more c c' /\ Q l c').
  Proof.
    intros P K. unfold dec_field, dec_cond. eapply at_bindt; [apply at_opt|]. intros cd c1 [H1 _]. rewrite P. eapply at_weak; [apply at_duncond; intros s c' H; apply K; mt|].
    intros l c2 (H3 & H4). split; [mt|exact H4].
  Qed.

  (** The leaves that have a value. *)
  Definition value_names (items : list (fattr * ty)) : list string := map (fun f => fa_name (fst f)) (filter (fun f => negb (fa_pad (fst f))) (flatten_items items)).
  Lemma knows_insert c n r m : knows {| dc_rc := dc_rc c; dc_map := (n, r) :: dc_map c |} m <-> m = n \/ knows c m.
  Proof. unfold knows. cbn [dc_map]. rewrite lookup_cons. destruct (String.eqb_spec n m); split; intros H; try (left; congruence); try discriminate; auto. destruct H; congruence. Qed.
  Lemma at_dinserts n : forall rs c, at_ c (dinserts n rs) true (fun _ c' => more c c' /\ (rs <> [] -> knows c' n)).
  Proof.
    induction rs as [|r rs IH]; intros c; cbn [dinserts]; [apply at_ret; split; [apply more_refl|congruence]|].
    eapply at_bindt with (Q1 := fun _ c' => more c c' /\ knows c' n).
    { split; [reflexivity|]. split; [intros m M; apply knows_insert; right; exact M|apply knows_insert; left; reflexivity]. }
    intros ? c1 [H1 H2]. eapply at_weak; [apply IH|]. intros ? c2 [H3 H4]. split; [mt|]. intros _. exact (H3 n H2).
  Qed.
  Lemma at_dnames : forall l c, (forall n, In n (map (fun f => fa_name (fst f)) (filter (fun f => negb (fa_pad (fst f))) l)) -> knows c n) -> at_ c (dec_names l) true (fun _ c' => c' = c).
  Proof.
    induction l as [|[a t] l IH]; intros c K; cbn [dec_names]; [apply at_ret; reflexivity|]. destruct (fa_pad a) eqn:P; cbn [orb].
    - apply IH. intros n N. apply K. cbn [filter fst]. rewrite P. exact N.
    - assert (K' : forall n, In n (map (fun f => fa_name (fst f)) (filter (fun f => negb (fa_pad (fst f))) l)) -> knows c n) by (intros n N; apply K; cbn [filter fst]; rewrite P; right; exact N).
      destruct (is_cont t); [apply IH, K'|]. eapply at_bindt with (Q1 := fun _ c' => c' = c).
      { unfold at_, dget. pose proof (K (fa_name a)) as N. cbn [filter fst] in N. rewrite P in N. specialize (N (or_introl eq_refl)). unfold knows in N. destruct (lookup _ _); [split; reflexivity|congruence]. }
      intros r c1 ->. eapply at_bindt; [apply IH, K'|]. intros rs c2 ->. apply at_ret. reflexivity.
  Qed.

  Definition item_ok (f : fattr * ty) : bool := fa_pad (fst f) || (conds_ok (snd f) && (negb (conditional (fst f)) || has_value (snd f))).
  Definition item_value (f : fattr * ty) : bool := negb (fa_pad (fst f)) && has_value (snd f).
  Definition item_shape (f : fattr * ty) : bool := if fa_pad (fst f) then pad_type (snd f) else shape (snd f).
  (** What is proved of a type by induction. *)
  Definition good_type (t : ty) : Prop := shape t = true -> forall a src c, fa_pad a = false ->
    at_ c (dec_complex p rf false a t src) (conds_ok t) (fun l c' => more c c' /\ valued (has_value t) l /\ forall n, is_cont t = true -> In n (value_names [(a, t)]) -> knows c' n).
  Lemma value_names_cons f l : value_names (f :: l) = value_names [f] ++ value_names l.
  Proof. unfold value_names, flatten_items. cbn [flat_map]. rewrite app_nil_r, filter_app, map_app. reflexivity. Qed.
  Definition ditem_of (f : fattr * ty) : ditem := (fst f, snd f, dec_complex p rf false (fst f) (snd f)).
  Lemma at_ditems : forall items, Forall (fun f => good_type (snd f)) items -> forallb item_shape items = true -> forall buf c,
    at_ c (dec_items (map ditem_of items) buf) (forallb item_ok items) (fun l c' => more c c' /\ valued (existsb item_value items) l /\ forall n, In n (value_names items) -> knows c' n).
  Proof.
    induction 1 as [|[a t] items G _ IH]; intros Sh buf c; cbn [map dec_items forallb existsb ditem_of fst snd] in *; [apply at_ret; split; [apply more_refl|]; split; [reflexivity|intros n []]|].
    apply andb_prop in Sh as [S1 S2]. unfold item_shape in S1. unfold item_ok at 1, item_value at 1. cbn [fst snd] in S1 |- *.
    eapply at_bind with (Q1 := fun l c' => more c c' /\ valued (negb (fa_pad a) && has_value t) l /\ forall n, is_cont t = true -> In n (value_names [(a, t)]) -> knows c' n).
    { destruct (fa_pad a) eqn:P; cbn [orb negb andb].
      - eapply at_dpad; [exact P|]. intros s c1 H1. destruct t as [| | | | | | | |el l|]; try discriminate. destruct l as [e| |]; try discriminate. cbn [dec_complex]. rewrite P.
        eapply at_bindt; [apply at_deval|]. intros r c2 H2. tl. apply at_ret. split; [exact H2|]. split; [reflexivity|discriminate].
      - apply at_dfield; [exact P|]. intros s c1 H1. apply G; assumption. }
    intros l c1 (H1 & H2 & H3). eapply at_bindt with (Q1 := fun _ c' => more c1 c' /\ forall n, In n (value_names [(a, t)]) -> knows c' n).
    { destruct (is_cont t) eqn:Ct; [apply at_ret; split; [apply more_refl|intros n N; apply H3; [reflexivity|exact N]]|]. eapply at_weak; [apply at_dinserts|]. intros ? c2 [H4 H5]. split; [exact H4|].
      intros n N. unfold value_names, flatten_items in N. cbn [flat_map app] in N. unfold flatten_field in N. cbn [fst snd] in N. rewrite Ct in N. cbn [app filter fst] in N. destruct (fa_pad a) eqn:P; cbn [negb] in N; [destruct N|]. destruct N as [<-|[]].
      apply H5. intros ->. assert (V : has_value t = true) by (destruct t; try reflexivity; discriminate). unfold valued in H2. rewrite V in H2. discriminate. }
    intros ? c2 [H4 H5]. rewrite <- (andb_true_r (forallb _ items)). eapply at_bind; [apply (IH S2)|]. intros rest c3 (H6 & H7 & H8). apply at_ret. split; [mt|]. split.
    - unfold valued in *. rewrite H7. destruct l; cbn in H2 |- *; rewrite H2; [reflexivity|]. reflexivity.
    - intros n N. rewrite value_names_cons in N. apply in_app_or in N as [N|N]; [apply H6, H5, N|apply H8, N].
  Qed.
  Lemma value_names_cont a len tg items : fa_pad a = false -> value_names [(a, TCont len tg items)] = value_names items.
  Proof. intros P. unfold value_names. f_equal. f_equal. unfold flatten_items at 1. cbn [flat_map]. rewrite app_nil_r. unfold flatten_field. cbn [snd is_cont]. apply flatten_ty_cont. Qed.
  Lemma at_dlen (len : option expr) src c : at_ c (match len with Some e => do l <- deval e; do b <- dfresh; do _ <- tell (DConstrict src b l); gret (TStream b) | None => gret src end) true (fun _ c' => more c c').
  Proof.
    destruct len as [e|]; [|apply at_ret, more_refl]. eapply at_bindt; [apply at_deval|]. intros l c1 H1. eapply at_bindt; [apply at_fresh|]. intros b c2 H2. tl. apply at_ret. mt.
  Qed.
  Lemma all_good : forall t, good_type t.
  Proof.
    assert (L : forall t, is_cont t = false -> good_type t).
    { intros t T Sh a src c P. assert (E : dec_complex p rf false a t src = (do r <- dec_type p rf t src; gret [r])) by (destruct t; try discriminate; cbn [dec_complex]; rewrite P; reflexivity). rewrite E.
      assert (C : conds_ok t = true) by (destruct t; try reflexivity; discriminate). assert (V : has_value t = true) by (destruct t; try reflexivity; discriminate). assert (Sh' : leaf_ok t = true) by (destruct t; try exact Sh; discriminate). rewrite C, V, T.
      eapply at_bindt; [apply at_dtype, Sh'|]. intros r c1 H1. apply at_ret. split; [exact H1|]. split; [reflexivity|discriminate]. }
    induction t as [e| | | |d|d|n|n args|el l IH|len tg items IH] using ty_ind'; try (apply L; reflexivity).
    intros Sh a src c P. cbn [shape] in Sh. apply andb_prop in Sh as [Tg Sh]. apply negb_true_iff in Tg. subst tg. cbn [dec_complex]. rewrite P. change (conds_ok (TCont len false items)) with (forallb item_ok items). change (has_value (TCont len false items)) with (existsb item_value items).
    eapply at_bindt; [apply at_dlen|]. intros buf c1 H1. rewrite <- (andb_true_r (forallb _ _)). eapply at_bind; [apply (at_ditems items IH Sh)|]. intros l c2 (H2 & H3 & H4). cbn [negb]. apply at_ret.
    split; [mt|]. split; [exact H3|]. intros n _ N. rewrite value_names_cont in N by exact P. exact (H4 n N).
  Qed.
  (** A struct at the top. *)
  Lemma top_struct a len items src c : fa_pad a = false -> shape (TCont len false items) = true ->
    at_ c (dec_complex p rf true a (TCont len false items) src) (conds_ok (TCont len false items)) (fun l c' => more c c' /\ List.length l = 1%nat).
  Proof.
    intros P Sh. cbn [dec_complex]. rewrite P. eapply at_bindt; [apply at_dlen|]. intros buf c1 H1. change (conds_ok (TCont len false items)) with (forallb item_ok items). rewrite <- (andb_true_r (forallb _ _)).
    eapply at_bind; [apply (at_ditems items); [apply Forall_forall; intros f _; apply all_good|exact Sh]|]. intros l c2 (H2 & _ & H4). cbn [negb]. eapply at_bindt; [apply at_fresh|]. intros em c3 H3.
    eapply at_bindt; [apply at_dnames; intros n N; apply H3, H4, N|]. intros its c4 ->. tl. apply at_ret. split; [mt|reflexivity].
  Qed.
  Lemma at_dvariant nm a t buf c : fa_pad a = false -> shape t = true -> at_ c (dec_variant nm a t (dec_complex p rf false a t) buf) (conds_ok t) (fun _ c' => more c c').
  Proof.
    intros P Sh. unfold dec_variant. rewrite <- (andb_true_r (conds_ok t)). eapply at_bind; [apply at_duncond; intros s c1 H1; apply (all_good t Sh), P|]. intros l c1 (H1 & H2 & H3). eapply at_bindt; [apply at_fresh|]. intros tgt c2 H4.
    assert (M : more c c2) by (mt). destruct (is_cont t) eqn:Ct.
    - eapply at_bindt; [apply at_dnames|].
      { intros n N. apply H4, H3; [reflexivity|]. unfold value_names, flatten_items. cbn [flat_map]. rewrite app_nil_r. unfold flatten_field. cbn [snd]. rewrite Ct. exact N. }
      intros vs c3 ->. tl. apply at_ret. exact M.
    - assert (V : has_value t = true) by (destruct t; try reflexivity; discriminate). unfold valued in H2. rewrite V in H2. destruct l as [|r l]; [discriminate|]. tl. apply at_ret. exact M.
  Qed.
  Lemma at_dvariants nm : forall items, forallb (fun f => negb (fa_pad (fst f)) && shape (snd f)) items = true -> forall buf c,
    at_ c (dec_variants nm (map ditem_of items) buf) (variants_ok items) (fun l c' => more c c' /\ List.length l = if existsb (fun f => negb (conditional (fst f))) items then 1%nat else 0%nat).
  Proof.
    induction items as [|[a t] items IH]; intros Sh buf c; cbn [map dec_variants variants_ok ditem_of fst snd existsb] in *.
    - tl. apply at_ret. split; [apply more_refl|reflexivity].
    - cbn [forallb fst snd] in Sh. apply andb_prop in Sh as [S1 S2]. apply andb_prop in S1 as [P S1]. apply negb_true_iff in P. eapply at_bindt; [apply at_opt|]. intros cd c1 [H1 H2]. unfold conditional at 1 2. destruct cd as [cd|]; destruct (fa_cond a); try discriminate; cbn [is_some negb orb].
      + eapply at_bind with (Q1 := fun _ c' => more c c').
        { eapply at_weak; [apply at_block with (Q := fun _ c' => more c c')|intros x c' H; exact H]. rewrite <- (andb_true_r (conds_ok t)). eapply at_bind; [apply at_dvariant; assumption|]. intros tgt c2 H3. apply at_tell. mt. }
        intros [body []] c2 H3. tl. eapply at_weak; [apply (IH S2)|]. intros l c4 [H4 H5]. split; [mt|exact H5].
      + eapply at_bind; [apply at_dvariant; assumption|]. intros tgt c2 H3. apply at_ret. split; [mt|reflexivity].
  Qed.
  (** A declaration. *)
  Theorem dec_total d : decl_shape d = true -> (dec_code p rf d <> None <-> decl_conds_ok d = true).
  Proof.
    intros Sh. unfold decl_shape in Sh. apply andb_prop in Sh as [P Sh]. apply negb_true_iff in P.
    assert (B : forall c, at_ c (dec_field (dec_complex p rf true (d_attr d) (d_ty d)) (d_attr d) TDirect) (decl_conds_ok d) (fun l c' => (List.length l <= 1)%nat)).
    { intros c. unfold decl_conds_ok. destruct (d_ty d) as [e| | | |e|e|n|n args|el l|len tg items] eqn:T.
      10: destruct tg.
      10: { eapply at_weak; [eapply (at_dfield _ _ _ _ _ _ (fun l _ => (List.length l <= 1)%nat) P); intros s c1 H1; cbn [dec_complex]; rewrite P; eapply at_bindt; [apply at_dlen|]; intros buf c2 H2; eapply at_weak; [apply (at_dvariants _ _ Sh)|];
             intros l c3 [H3 H4]; split; [mt|]; split; [|destruct (existsb _ items); lia]; unfold valued; destruct (existsb _ items); destruct l as [|r [|]]; try discriminate; reflexivity|]. intros l c1 (_ & _ & H). exact H. }
      10: { eapply at_weak with (Q := fun l c' => more c c' /\ valued true l /\ (List.length l <= 1)%nat); [|intros l c1 (_ & _ & H); exact H]. 
            eapply (at_dfield_t _ _ _ _ _ (fun l _ => (List.length l <= 1)%nat) P). intros s c1 H1. eapply at_weak; [apply (top_struct _ _ _ _ _ P Sh)|]. intros l c2 [H2 H3]. split; [exact H2|]. split; [unfold valued; destruct l; [discriminate|reflexivity]|rewrite H3; lia]. }
      all: (eapply at_weak with (Q := fun l c' => more c c' /\ valued true l /\ (List.length l <= 1)%nat); [|intros l' c1 (_ & _ & H); exact H]; cbn [conds_ok]; eapply (at_dfield_t _ _ _ _ _ (fun l _ => (List.length l <= 1)%nat) P); intros s c1 H1;
            cbn [dec_complex]; rewrite P; eapply at_bindt; [apply at_dtype; exact Sh|]; intros r c2 H2; apply at_ret; split; [exact H2|]; split; [reflexivity|cbn; lia]). }
    assert (F : forall c, at_ c (dec_top p rf d) (decl_conds_ok d) any).
    { intros c. unfold dec_top. rewrite <- (andb_true_r (decl_conds_ok d)). eapply at_bind; [apply B|]. intros l c1 H1. cbn beta in H1. destruct (1 <? List.length l)%nat eqn:L; [apply Nat.ltb_lt in L; lia|].
      eapply at_bindt with (Q1 := any).
      { destruct (d_ty d); destruct l; try (apply at_ret; exact I); (eapply at_bindt; [apply at_fresh|]; intros ? c2 _; eapply at_bindt; [apply at_tell with (Q := any); exact I|]; intros ? c3 _; apply at_ret; exact I). }
      intros v c2 _. destruct v; [apply at_ret; exact I|apply at_tell; exact I]. }
    unfold dec_code. pose proof (at_some _ _ _ _ (F {| dc_rc := 0; dc_map := [] |})) as K. destruct (dec_top p rf d _) as [[[i u] c']|]; [split; [intros _; apply K; discriminate|discriminate]|]. split; [congruence|]. intros H. apply K in H. congruence.
  Qed.
End Dec.

(** ** Encoders *)
(** A name is awaited or known; contexts only gain. *)
Definition res_in (c : ectx) (n : string) : Prop := lookup n (ec_resolved c) <> None.
Definition seen (c : ectx) (n : string) : Prop := mem n (ec_pending c) = true \/ res_in c n.
Definition gains (c c' : ectx) : Prop := (forall n, res_in c n -> res_in c' n) /\ (forall n, seen c n -> seen c' n).
Definition alike (c c' : ectx) : Prop := ec_resolved c' = ec_resolved c /\ ec_pending c' = ec_pending c.
Lemma gains_refl c : gains c c. Proof. split; auto. Qed.
Lemma gains_trans a b c : gains a b -> gains b c -> gains a c. Proof. intros [A1 A2] [B1 B2]. split; auto. Qed.
Lemma alike_refl c : alike c c. Proof. split; reflexivity. Qed.
Lemma alike_trans a b c : alike a b -> alike b c -> alike a c. Proof. intros [A1 A2] [B1 B2]. split; congruence. Qed.
Lemma alike_gains a b : alike a b -> gains a b.
Proof. intros [A B]. split; intros n; unfold seen, res_in; rewrite A, ?B; auto. Qed.
(** A relation between contexts that generators of leaves and of containers keep. *)
Record keeps (T : ectx -> ectx -> Prop) : Prop := { k_alike : forall a b, alike a b -> T a b; k_trans : forall a b c, T a b -> T b c -> T a c }.
Lemma keeps_alike : keeps alike. Proof. split; [auto|exact alike_trans]. Qed.
Lemma keeps_gains : keeps gains. Proof. split; [exact alike_gains|exact gains_trans]. Qed.

Definition does {A} (T : ectx -> ectx -> Prop) (m : egen A) : Prop := forall c, exists i a c', m c = Some (i, a, c') /\ T c c'.
Section Does.
  Variable T : ectx -> ectx -> Prop.
  Hypothesis K : keeps T.
  Lemma does_bind {A B} (m : egen A) (f : A -> egen B) : does T m -> (forall a, does T (f a)) -> does T (gbind m f).
  Proof.
    intros H F c. destruct (H c) as (i & a & c1 & E & H1). destruct (F a c1) as (i2 & b & c2 & E2 & H2). exists (i ++ i2), b, c2. unfold gbind. rewrite E, E2. split; [reflexivity|exact (k_trans _ K _ _ _ H1 H2)].
  Qed.
  Lemma does_ret {A} (a : A) : does T (gret a).
  Proof. intros c. exists [], a, c. split; [reflexivity|apply (k_alike _ K), alike_refl]. Qed.
  Lemma does_tell i : does T (tell i).
  Proof. intros c. exists [i], tt, c. split; [reflexivity|apply (k_alike _ K), alike_refl]. Qed.
  Lemma does_block {A} (m : egen A) : does T m -> does T (block m).
  Proof. intros H c. destruct (H c) as (i & a & c1 & E & H1). exists [], (i, a), c1. unfold block. rewrite E. auto. Qed.
  Lemma does_fresh : does T efresh.
  Proof. intros c. do 3 eexists. split; [reflexivity|]. apply (k_alike _ K). split; reflexivity. Qed.
  Lemma does_eval e : does T (eeval e).
  Proof. apply does_bind; [exact does_fresh|]. intros r. apply does_bind; [apply does_tell|]. intros _. apply does_ret. Qed.
  Lemma does_evals l : does T (eevals l).
  Proof. induction l as [|e l IH]; cbn [eevals]; [apply does_ret|]. apply does_bind; [apply does_eval|]. intros r. apply does_bind; [exact IH|]. intros rs. apply does_ret. Qed.
  Lemma does_resolved n : does T (eresolved n).
  Proof. intros c. do 3 eexists. split; [reflexivity|apply (k_alike _ K), alike_refl]. Qed.
  Lemma does_pending n : does T (epending n).
  Proof. intros c. do 3 eexists. split; [reflexivity|apply (k_alike _ K), alike_refl]. Qed.
  Ltac dt := repeat first [apply does_ret | apply does_tell | apply does_fresh | apply does_eval | apply does_evals | apply does_block | (apply does_bind; [|intros ?])].
  Variable p : program.
  Variable rf : nat.
  Lemma does_etype : forall t tgt src, leaf_ok t = true -> does T (enc_type p rf t tgt src).
  Proof.
    induction t as [e| | | |d|d|n|n args|el l IH|len tg items _] using ty_ind'; intros tgt src H; cbn [enc_type leaf_ok] in *; try discriminate; try apply does_tell.
    - apply does_bind; [apply does_evals|]. intros rs. destruct (p n) as [[a t ps]|]; [destruct t|]; apply does_tell.
    - unfold enc_array. apply does_bind; [destruct l; dt|]. intros term. apply does_bind; [destruct l; dt|]. intros len.
      destruct (match term with None => kind_of (resolved p rf el) | Some _ => KLoop end); try apply does_tell.
      apply does_bind; [apply does_block; apply does_bind; [apply does_fresh|]; intros idx; apply does_bind; [apply does_fresh|]; intros item; apply does_bind; [apply does_tell|]; intros _; apply does_bind; [apply IH, H|]; intros _; apply does_ret|].
      intros [body idx]. apply does_bind; [destruct len; dt|]. intros ln. apply does_bind; [apply does_tell|]. intros _. destruct term; dt.
  Qed.
  Lemma does_exs : forall xs tgt, does T (enc_xs xs tgt).
  Proof.
    induction xs as [|x xs IH]; intros tgt; cbn [enc_xs]; [apply does_ret|]. apply does_bind; [destruct (x_cond x); dt|]. intros [c|].
    - apply does_bind; [apply does_block, does_evals|]. intros [pre args]. apply does_bind; [apply does_fresh|]. intros s. apply does_bind; [apply does_fresh|]. intros o. apply does_bind; [apply does_tell|]. intros _. apply does_bind; [apply IH|]. intros [inner l]. apply does_ret.
    - apply does_bind; [apply does_evals|]. intros args. apply does_bind; [apply does_fresh|]. intros s. apply does_bind; [apply does_tell|]. intros _. apply does_bind; [apply IH|]. intros [inner l]. apply does_ret.
  Qed.
  Lemma does_ends : forall l, does T (enc_ends l).
  Proof. induction l as [|[s o] l IH]; cbn [enc_ends]; [apply does_ret|]. apply does_bind; [apply does_tell|]. intros _. apply does_bind; [destruct o; dt|]. intros _. exact IH. Qed.
  Lemma does_uncond k a t pseudo tgt src sc tc : (if fa_pad a then pad_type t = true else forall tg sr b, does T (k tg sr b)) -> does T (enc_uncond k a t pseudo tgt src sc tc).
  Proof.
    intros H. unfold enc_uncond. apply does_bind; [apply does_exs|]. intros [inner streams]. apply does_bind; [destruct (_ && negb (fa_pad a)); dt|]. intros src'. apply does_bind; [|intros _; apply does_ends].
    destruct (fa_pad a); [|apply H]. destruct t as [| | | | | | | |el l|]; try discriminate. destruct l; try discriminate. dt.
  Qed.
  Lemma does_field k a t pseudo tgt src b : (if fa_pad a then pad_type t = true else forall tg sr b, does T (k tg sr b)) -> does T (enc_field k a t pseudo tgt src b).
  Proof.
    intros H. unfold enc_field, enc_cond. apply does_bind; [destruct (fa_cond a); dt|]. intros [c|]; [|apply does_uncond, H]. apply does_bind; [apply does_block, does_uncond, H|]. intros [body []]. apply does_tell.
  Qed.
  Lemma does_refs src : forall l, does T (enc_refs l src).
  Proof. induction l as [|[a t] l IH]; cbn [enc_refs]; [apply does_ret|]. destruct (_ || fa_pad a); [exact IH|]. dt. exact IH. Qed.
  Lemma does_nullchecks : forall l, does T (enc_nullchecks l).
  Proof. induction l as [|[a t] l IH]; cbn [enc_nullchecks]; [apply does_ret|]. destruct (_ || _); [exact IH|]. dt. exact IH. Qed.
  Lemma does_names : forall l, does T (enc_names l).
  Proof. induction l as [|[a t] l IH]; cbn [enc_names]; [apply does_ret|]. destruct (_ || _); [exact IH|]. apply does_bind; [apply does_fresh|]. intros r. apply does_bind; [exact IH|]. intros rs. apply does_ret. Qed.
  Lemma does_setrefs : forall l, does T (enc_setrefs l).
  Proof. induction l as [|[a t] l IH]; cbn [enc_setrefs]; [apply does_ret|]. dt. exact IH. Qed.
  Definition calc_ok (a : fattr) : bool := match fa_calc a with Some e => is_some (blen_calls e) | None => true end.
  Lemma does_calcs : forall l, forallb (fun f => calc_ok (fst f)) l = true -> does T (enc_calcs l).
  Proof.
    induction l as [|[a t] l IH]; intros H; cbn [enc_calcs forallb fst] in *; [apply does_ret|]. apply andb_prop in H as [H1 H2]. unfold calc_ok in H1. destruct (fa_calc a) as [e|]; [|exact (IH H2)].
    destruct (blen_calls e) as [[|]|]; [|exact (IH H2)|discriminate]. dt. exact (IH H2).
  Qed.
End Does.

(** The calls found are the calls replaced. *)
Lemma mem_cons n x l : mem n (x :: l) = String.eqb n x || mem n l. Proof. reflexivity. Qed.
Lemma mem_in n l : mem n l = true <-> In n l.
Proof. unfold mem. rewrite existsb_exists. split; [intros (y & Y & E); apply String.eqb_eq in E; subst; exact Y|intros H; exists n; split; [exact H|apply String.eqb_refl]]. Qed.
Lemma add_in m n l : In m (add_name n l) <-> m = n \/ In m l.
Proof.
  unfold add_name. destruct (mem n l) eqn:E; [apply mem_in in E; split; [auto|intros [->|H]; assumption]|]. rewrite in_app_iff. cbn. intuition.
Qed.
Lemma fold_add_in m : forall y x, In m (fold_left (fun l n => add_name n l) y x) <-> In m x \/ In m y.
Proof. induction y as [|n y IH]; intros x; cbn [fold_left In]; [intuition|]. rewrite IH, add_in. intuition. Qed.
Definition both (a b : option (list string)) := match a, b with Some x, Some y => Some (fold_left (fun l n => add_name n l) y x) | _, _ => None end.
Lemma both_some a b l : both a b = Some l -> exists x y, a = Some x /\ b = Some y /\ forall n, In n l <-> In n x \/ In n y.
Proof. destruct a as [x|], b as [y|]; cbn; try discriminate. intros H. injection H as <-. exists x, y. split; [reflexivity|]. split; [reflexivity|]. intros n. apply fold_add_in. Qed.
Section Rewrite.
  Variable known : list string.
  Lemma rewrite_total : forall (e : expr) l, blen_calls e = Some l -> (forall n, In n l -> In n known) -> rewrite_blen known e <> None.
  Proof.
    assert (B2 : forall a b l, both a b = Some l -> (forall n, In n l -> In n known) -> exists x y, a = Some x /\ b = Some y /\ (forall n, In n x -> In n known) /\ (forall n, In n y -> In n known)).
    { intros a b l H K. apply both_some in H as (x & y & -> & -> & M). exists x, y. split; [reflexivity|]. split; [reflexivity|]. split; intros n N; apply K, M; auto. }
    induction e as [op a b IH1 IH2|op a IH|a t IH|a b IH1 IH2|d v z|d v z|z|n t v|n t|n t|b|c a b IH1 IH2 IH3|b|fn args IH|a f z IH] using expr_ind'; intros l' H K; cbn [blen_calls] in H; cbn [rewrite_blen]; try discriminate.
    - apply (B2 _ _ _ H) in K as (x & y & A & B & KA & KB). pose proof (IH1 x A KA). pose proof (IH2 y B KB). destruct (rewrite_blen known a); [|congruence]. destruct (rewrite_blen known b); congruence.
    - pose proof (IH _ H K). destruct (rewrite_blen known a); congruence.
    - pose proof (IH _ H K). destruct (rewrite_blen known a); congruence.
    - apply (B2 _ _ _ H) in K as (x & y & A & B & KA & KB). pose proof (IH1 x A KA). pose proof (IH2 y B KB). destruct (rewrite_blen known a); [|congruence]. destruct (rewrite_blen known b); congruence.
    - apply (B2 _ _ _ H) in K as (x & y & A & B & KA & KB). apply (B2 _ _ _ A) in KA as (x1 & x2 & A1 & A2 & KA1 & KA2).
      pose proof (IH1 x1 A1 KA1). pose proof (IH2 x2 A2 KA2). pose proof (IH3 y B KB). destruct (rewrite_blen known c); [|congruence]. destruct (rewrite_blen known a); [|congruence]. destruct (rewrite_blen known b); congruence.
    - remember ((fix go l := match l with [] => Some [] | x :: l => both (blen_calls x) (go l) end) args) as inner eqn:Ei. 
      assert (H' : (if String.eqb fn "blen" then match inner, args with Some ns, EField n _ :: _ => Some (add_name n ns) | _, _ => None end else inner) = Some l') by (rewrite Ei; exact H). clear H. rename H' into H.
      assert (G : forall li, inner = Some li -> (forall n, In n li -> In n known) -> exists args', (fix go l := match l with [] => Some [] | x :: l => match rewrite_blen known x, go l with Some x, Some l => Some (x :: l) | _, _ => None end end) args = Some args' /\
        match args with EField n t :: _ => exists r, args' = EField n t :: r | _ => True end).
      { subst inner. clear H. induction IH as [|a args Ha _ IHa]; intros li E Kl; [exists []; auto|]. apply (B2 _ _ _ E) in Kl as (x & y & A & B & KA & KB). destruct (IHa y B KB) as (args' & E' & _). pose proof (Ha x A KA) as R.
        destruct (rewrite_blen known a) as [a'|] eqn:Ra; [|congruence]. exists (a' :: args'). rewrite E'. split; [reflexivity|]. destruct a; try exact I. cbn in Ra. injection Ra as <-. eexists. reflexivity. }
      destruct (String.eqb fn "blen").
      + destruct inner as [ns|]; [|discriminate]. destruct args as [|a args]; [discriminate|]. destruct a; try discriminate. injection H as <-.
        destruct (G ns eq_refl) as (args' & E' & r & ->); [intros m M; apply K, add_in; right; exact M|]. rewrite E'. rewrite (proj2 (mem_in _ _)); [discriminate|]. apply K, add_in. left. reflexivity.
      + destruct (G l' H K) as (args' & E' & _). rewrite E'. discriminate.
    - pose proof (IH _ H K). destruct (rewrite_blen known a); congruence.
  Qed.
End Rewrite.

(** One step that is not like the others. *)
Definition stable (R : ectx -> ectx -> Prop) : Prop := forall a b c d, alike a b -> R b c -> alike c d -> R a d.
Lemma does_lift {A} (R : ectx -> ectx -> Prop) (m : egen A) (T : ectx -> ectx -> Prop) : (forall a b, R a b -> T a b) -> does R m -> does T m.
Proof. intros H D c. destruct (D c) as (i & a & c' & E & G). exists i, a, c'. auto. Qed.
Section Runs.
  Variable R : ectx -> ectx -> Prop.
  Hypothesis St : stable R.
  Lemma does_bind_l {A B} (m : egen A) (f : A -> egen B) : does alike m -> (forall a, does R (f a)) -> does R (gbind m f).
  Proof.
    intros H F c. destruct (H c) as (i & a & c1 & E & H1). destruct (F a c1) as (i2 & b & c2 & E2 & H2). exists (i ++ i2), b, c2. unfold gbind. rewrite E, E2. split; [reflexivity|exact (St _ _ _ _ H1 H2 (alike_refl _))].
  Qed.
  Lemma does_bind_r {A B} (m : egen A) (f : A -> egen B) : does R m -> (forall a, does alike (f a)) -> does R (gbind m f).
  Proof.
    intros H F c. destruct (H c) as (i & a & c1 & E & H1). destruct (F a c1) as (i2 & b & c2 & E2 & H2). exists (i ++ i2), b, c2. unfold gbind. rewrite E, E2. split; [reflexivity|exact (St _ _ _ _ (alike_refl _) H1 H2)].
  Qed.
  Ltac da := repeat first [apply (does_ret _ keeps_alike) | apply (does_tell _ keeps_alike) | apply (does_fresh _ keeps_alike) | apply (does_eval _ keeps_alike) | (apply (does_bind _ keeps_alike); [|intros ?])].
  Lemma runs_uncond k a t pseudo tgt src sc tc : fa_pad a = false -> (forall tg sr b, does R (k tg sr b)) -> does R (enc_uncond k a t pseudo tgt src sc tc).
  Proof.
    intros P H. unfold enc_uncond. apply does_bind_l; [apply (does_exs _ keeps_alike)|]. intros [inner streams]. apply does_bind_l; [destruct (_ && negb (fa_pad a)); da|]. intros src'. rewrite P. apply does_bind_r; [apply H|]. intros _. apply (does_ends _ keeps_alike).
  Qed.
  Lemma runs_field k a t pseudo tgt src b : fa_pad a = false -> (forall tg sr b, does R (k tg sr b)) -> does R (enc_field k a t pseudo tgt src b).
  Proof.
    intros P H. unfold enc_field, enc_cond. apply does_bind_l; [destruct (fa_cond a); da|]. intros [c|]; [|apply runs_uncond; assumption].
    apply does_bind_r; [|intros [body []]; apply (does_tell _ keeps_alike)]. apply does_block. apply runs_uncond; assumption.
  Qed.
End Runs.

(** Fields waiting for a length. *)
Definition known_in (c : ectx) (n : string) : bool := is_some (lookup n (ec_resolved c)).
Lemma known_res c n : known_in c n = true <-> res_in c n.
Proof. unfold known_in, res_in. destruct (lookup n (ec_resolved c)); cbn; split; congruence. Qed.
Lemma all_resolved_is : forall l c, all_resolved l c = Some ([], forallb (known_in c) l, c).
Proof.
  induction l as [|n l IH]; intros c; cbn [all_resolved forallb]; [reflexivity|]. unfold gbind, eresolved. rewrite IH. cbn. unfold known_in at 2. destruct (lookup n (ec_resolved c)); reflexivity.
Qed.
Lemma pend_all_seen : forall l c, exists c', pend_all l c = Some ([], tt, c') /\ gains c c' /\ ec_resolved c' = ec_resolved c /\ forall n, In n l -> seen c' n.
Proof.
  induction l as [|n l IH]; intros c; cbn [pend_all]; [exists c; split; [reflexivity|]; split; [apply gains_refl|]; split; [reflexivity|intros n []]|].
  unfold gbind at 1, eresolved. destruct (lookup n (ec_resolved c)) as [r|] eqn:L.
  - destruct (IH c) as (c' & E & G & Rs & H). exists c'. unfold gbind. cbn [gret]. unfold gret. rewrite E. split; [reflexivity|]. split; [exact G|]. split; [exact Rs|]. intros m [<-|M]; [|apply H, M]. apply G. right. unfold res_in. rewrite L. discriminate.
  - destruct (IH {| ec_rc := ec_rc c; ec_resolved := ec_resolved c; ec_pending := n :: ec_pending c |}) as (c' & E & G & Rs & H). exists c'. unfold gbind, epend. rewrite E. split; [reflexivity|].
    split; [eapply gains_trans; [|exact G]|]. { split; [intros m M; exact M|]. intros m [M|M]; [left; change (String.eqb m n || mem m (ec_pending c) = true); rewrite M; apply orb_true_r|right; exact M]. }
    split; [exact Rs|]. intros m [<-|M]; [|apply H, M]. apply G. left. cbn. rewrite String.eqb_refl. reflexivity.
Qed.
Lemma set_blens_ok : forall l c, forallb (known_in c) l = true -> exists i, set_blens l c = Some (i, tt, c).
Proof.
  induction l as [|n l IH]; intros c H; cbn [set_blens forallb] in *; [exists []; reflexivity|]. apply andb_prop in H as [H1 H2]. unfold known_in in H1. unfold gbind, eresolved, tell. destruct (lookup n (ec_resolved c)); [|discriminate]. destruct (IH c H2) as [i E]. rewrite E. eexists. reflexivity.
Qed.
Lemma eval_blen_ok l n e c : blen_calls e = Some l -> forallb (known_in c) l = true -> exists i r c', eval_blen l n e c = Some (i, r, c') /\ alike c c'.
Proof.
  intros B H. unfold eval_blen. destruct (set_blens_ok l c H) as [i E]. pose proof (rewrite_total l e l B (fun n N => N)) as Rw. destruct (rewrite_blen l e) as [e'|]; [|congruence].
  unfold gbind, eeval, efresh, tell, gret. rewrite E. do 3 eexists. split; [reflexivity|split; reflexivity].
Qed.
(** A waiting field: its expression, its emission, and that some length is unknown. *)
Definition pre_ok (x : auto) : Prop := exists e l, fa_calc (snd (fst x)) = Some e /\ blen_calls e = Some l /\ forall tg sr, does alike (snd x tg sr).
Definition waits (c : ectx) (x : auto) : Prop := forall e l, fa_calc (snd (fst x)) = Some e -> blen_calls e = Some l -> exists n, In n l /\ known_in c n = false.
Lemma waits_alike c c' x : alike c c' -> waits c x -> waits c' x.
Proof. intros [A _] W e l E B. destruct (W e l E B) as (n & N & U). exists n. split; [exact N|]. unfold known_in in *. rewrite A. exact U. Qed.
Lemma forallb_false {A} (f : A -> bool) : forall l, forallb f l = false -> exists x, In x l /\ f x = false.
Proof. induction l as [|x l IH]; cbn; [discriminate|]. destruct (f x) eqn:E; [|intros _; exists x; auto]. cbn. intros H. destruct (IH H) as (y & Y & F). exists y. auto. Qed.
Lemma remove_nth_in {A} (x : A) : forall i l, In x (remove_nth i l) -> In x l.
Proof. induction i as [|i IH]; intros [|y l]; cbn; auto. intros [H|H]; [auto|right; apply IH, H]. Qed.
Lemma remove_nth_skip {A} : forall i (l : list A), skipn i (remove_nth i l) = skipn (S i) l.
Proof. induction i as [|i IH]; intros [|y l]; try reflexivity. cbn [remove_nth skipn]. rewrite IH. reflexivity. Qed.
Lemma skip_in {A} (x y : A) : forall i l, nth_error l i = Some y -> In x (skipn i l) -> x = y \/ In x (skipn (S i) l).
Proof. induction i as [|i IH]; intros [|z l]; cbn [nth_error skipn]; try discriminate; [intros E [H|H]; [left; congruence|right; exact H]|]. intros E H. apply (IH l E H). Qed.
Lemma flush_ok base : forall i autos c, Forall pre_ok autos -> (i <= List.length autos)%nat -> (forall x, In x (skipn i autos) -> waits c x) ->
  exists is l c', flush_autos i autos base c = Some (is, l, c') /\ alike c c' /\ forall x, In x l -> In x autos /\ waits c x.
Proof.
  induction i as [|i IH]; intros autos c P L W; cbn [flush_autos].
  - exists [], autos, c. split; [reflexivity|]. split; [apply alike_refl|]. intros x X. split; [exact X|apply W, X].
  - destruct (nth_error autos i) as [[[buf a] enc]|] eqn:N; [|apply nth_error_None in N; lia]. pose proof (proj1 (Forall_forall _ _) P _ (nth_error_In _ _ N)) as (e & l & E & B & D). cbn [fst snd] in E, D. rewrite E, B.
    unfold gbind at 1. rewrite all_resolved_is. destruct (forallb (known_in c) l) eqn:F.
    + destruct (eval_blen_ok l (fa_name a) e c B F) as (i1 & r & c1 & E1 & A1). unfold gbind at 1. rewrite E1. remember (match nth_error (remove_nth i autos) i with Some (b, _, _) => TBuf b | None => base end) as tgt. destruct (D tgt r c1) as (i2 & u & c2 & E2 & A2). unfold gbind at 1. rewrite E2. unfold gbind at 1, tell.
      assert (A : alike c c2) by (eapply alike_trans; eassumption).
      destruct (IH (remove_nth i autos) c2) as (i3 & l3 & c3 & E3 & A3 & H3).
      { apply Forall_forall. intros x X. apply (proj1 (Forall_forall _ _) P), (remove_nth_in _ _ _ X). }
      { clear - L N. revert autos L N. induction i as [|i IHi]; intros [|y l]; cbn [remove_nth List.length]; intros; try lia; cbn in *; try lia. apply le_n_S, IHi; [lia|assumption]. }
      { intros x X. rewrite remove_nth_skip in X. apply (waits_alike _ _ _ A), W, X. }
      rewrite E3. do 3 eexists. split; [reflexivity|]. split; [eapply alike_trans; eassumption|]. intros x X. destruct (H3 x X) as [H4 H5]. split; [apply (remove_nth_in _ _ _ H4)|]. eapply waits_alike; [|exact H5]. destruct A; split; congruence.
    + destruct (IH autos c P) as (i3 & l3 & c3 & E3 & A3 & H3); [lia| |rewrite E3; do 3 eexists; split; [reflexivity|]; split; assumption].
      intros x X. apply (skip_in _ _ _ _ N) in X as [->|X]; [|apply W, X]. intros e' l' Ee Bb. cbn [fst snd] in Ee. rewrite E in Ee. injection Ee as <-. rewrite B in Bb. injection Bb as <-. apply forallb_false, F.
Qed.

Lemma bind_eq {A B} (m : egen A) (f : A -> egen B) c i a c1 j b c2 : m c = Some (i, a, c1) -> f a c1 = Some (j, b, c2) -> gbind m f c = Some (i ++ j, b, c2).
Proof. intros E F. unfold gbind. rewrite E, F. reflexivity. Qed.
Section Enc.
  Variable p : program.
  Variable rf : nat.
  Definition step (f : fattr * ty) (c c' : ectx) : Prop := gains c c' /\ forall n, In n (sized [f]) -> seen c n -> res_in c' n.
  Lemma step_stable f : stable (step f).
  Proof.
    intros a b c d A [G H] B. split; [eapply gains_trans; [apply alike_gains, A|eapply gains_trans; [exact G|apply alike_gains, B]]|]. intros n N Sn. apply (alike_gains _ _ B), (H n N), (alike_gains _ _ A), Sn.
  Qed.
  Definition egood (t : ty) : Prop := shape t = true -> blens_ok t = true -> forall a tgt src cd, fa_pad a = false -> does (step (a, t)) (enc_complex p rf false a t tgt src cd).
  Definition eitem_of (f : fattr * ty) : eitem := (fst f, snd f, enc_complex p rf false (fst f) (snd f)).
  (** The lengths a waiting field waits for are known or still to come. *)
  Definition auto_ok (c : ectx) (later : list string) (x : auto) : Prop :=
    pre_ok x /\ waits c x /\ forall e l, fa_calc (snd (fst x)) = Some e -> blen_calls e = Some l -> forall n, In n l -> res_in c n \/ (seen c n /\ In n later).
  Lemma sized_cons f l : sized (f :: l) = sized [f] ++ sized l.
  Proof. unfold sized. cbn [flat_map]. rewrite app_nil_r. reflexivity. Qed.
  Lemma eitems_ok : forall items, Forall (fun f => egood (snd f)) items -> forallb item_shape items = true -> blen_items items = true -> forallb (fun f => blens_ok (snd f)) items = true ->
    forall buf src cd autos c, (forall x, In x autos -> auto_ok c (sized items) x) -> exists i c', enc_items (map eitem_of items) buf src cd autos c = Some (i, tt, c') /\ gains c c'.
  Proof.
    induction 1 as [|[a t] items G _ IH]; intros Sh Bi Bs buf src cd autos c Au; cbn [map enc_items eitem_of fst snd].
    - destruct autos as [|x autos]; [exists [], c; split; [reflexivity|apply gains_refl]|]. exfalso. destruct (Au x (or_introl eq_refl)) as ((e & l & E & B & _) & W & K). destruct (W e l E B) as (n & N & U). destruct (K e l E B n N) as [R|[_ []]]. apply known_res in R. congruence.
    - cbn [forallb fst snd blen_items] in Sh, Bi, Bs. apply andb_prop in Sh as [S1 S2]. apply andb_prop in Bi as [B1 B2]. apply andb_prop in Bs as [B3 B4]. unfold item_shape in S1. cbn [fst snd] in S1, G.
      assert (F : forall tg sr b, does (step (a, t)) (enc_field (enc_complex p rf false a t) a t (is_cont t) tg sr b)).
      { intros tg sr b. destruct (fa_pad a) eqn:P.
        - eapply does_lift; [|apply (does_field _ keeps_gains); rewrite P; exact S1]. intros c1 c2 H. split; [exact H|]. intros n N. unfold sized in N. cbn [flat_map fst snd] in N. rewrite P in N. destruct t as [| | | | | | | | |[]]; cbn in N; destruct N.
        - apply runs_field; [apply step_stable|exact P|]. intros tg' sr' b'. apply G; assumption. }
      (* the ordinary course *)
      assert (Pl : forall c0, (forall x, In x autos -> auto_ok c0 (sized ((a, t) :: items)) x) -> exists i c',
        (do _ <- (if is_cont t || fa_pad a then enc_field (enc_complex p rf false a t) a t (is_cont t) (auto_target autos buf) src cd
                  else do r <- efresh; do _ <- tell (NGetRef r (fa_name a)); enc_field (enc_complex p rf false a t) a t (is_cont t) (auto_target autos buf) r cd);
         do autos <- flush_autos (List.length autos) autos buf;
         enc_items (map eitem_of items) buf src cd autos) c0 = Some (i, tt, c') /\ gains c0 c').
      { intros c0 Au0.
        assert (F' : does (step (a, t)) (if is_cont t || fa_pad a then enc_field (enc_complex p rf false a t) a t (is_cont t) (auto_target autos buf) src cd
                  else do r <- efresh; do _ <- tell (NGetRef r (fa_name a)); enc_field (enc_complex p rf false a t) a t (is_cont t) (auto_target autos buf) r cd)).
        { destruct (is_cont t || fa_pad a); [apply F|]. apply does_bind_l; [apply step_stable|apply (does_fresh _ keeps_alike)|]. intros r. apply does_bind_l; [apply step_stable|apply (does_tell _ keeps_alike)|]. intros _. apply F. }
        destruct (F' c0) as (i1 & [] & c1 & E1 & [G1 H1]). destruct (flush_ok buf (List.length autos) autos c1) as (i2 & l2 & c2 & E2 & A2 & H2).
        { apply Forall_forall. intros x X. exact (proj1 (Au0 x X)). }
        { lia. }
        { rewrite skipn_all. intros x []. }
        destruct (IH S2 B2 B4 buf src cd l2 c2) as (i3 & c3 & E3 & G3).
        { intros x X. destruct (H2 x X) as [H3 H4]. destruct (Au0 x H3) as (P & _ & K). split; [exact P|]. split; [apply (waits_alike _ _ _ A2 H4)|]. intros e l E B n N.
          destruct (K e l E B n N) as [R|[Sn L]]; [left; apply (alike_gains _ _ A2), G1, R|]. rewrite sized_cons in L. apply in_app_or in L as [L|L]; [left; apply (alike_gains _ _ A2), (H1 n L Sn)|right; split; [apply (alike_gains _ _ A2), G1, Sn|exact L]]. }
        do 2 eexists. split; [exact (bind_eq _ _ _ _ _ _ _ _ _ E1 (bind_eq _ _ _ _ _ _ _ _ _ E2 E3))|]. eapply gains_trans; [exact G1|]. eapply gains_trans; [apply alike_gains, A2|exact G3]. }
      cbv zeta. unfold blen_field in B1. destruct (fa_calc a) as [e|] eqn:Ca; [|apply Pl, Au]. destruct (blen_calls e) as [[|n0 l0]|] eqn:Bc; [apply Pl, Au| |discriminate].
      apply andb_prop in B1 as [B1 B5]. apply andb_prop in B1 as [Ct Pd]. apply negb_true_iff in Ct. apply negb_true_iff in Pd. remember (n0 :: l0) as l eqn:El. clear El.
      pose proof (all_resolved_is l c) as E0. destruct (pend_all_seen l c) as (c1 & E1 & G1 & R1 & Sn).
      assert (Kn : forall n, known_in c1 n = known_in c n) by (intros n; unfold known_in; rewrite R1; reflexivity).
      destruct (forallb (known_in c) l) eqn:Al.
      + assert (Al1 : forallb (known_in c1) l = true) by (rewrite <- Al; clear - Kn; induction l as [|n l IHl]; cbn; [reflexivity|rewrite Kn, IHl; reflexivity]). destruct (eval_blen_ok l (fa_name a) e c1 Bc Al1) as (i2 & r & c2 & E2 & A2).
        destruct (Pl c2) as (i3 & c3 & E3 & G3).
        { intros x X. destruct (Au x X) as (P & W & K). assert (G2 : gains c c2) by (eapply gains_trans; [exact G1|apply alike_gains, A2]). split; [exact P|]. split; [apply (waits_alike _ _ _ A2); intros e' l' Ee Bb; destruct (W e' l' Ee Bb) as (n & N & U); exists n; rewrite Kn; auto|].
          intros e' l' Ee Bb n N. destruct (K e' l' Ee Bb n N) as [R|[S3 L]]; [left; apply G2, R|right; split; [apply G2, S3|exact L]]. }
        do 2 eexists. split; [refine (bind_eq _ _ _ _ _ _ _ _ _ E0 (bind_eq _ _ _ _ _ _ _ _ _ E1 _)); cbv beta; exact (bind_eq _ _ _ _ _ _ _ _ _ E2 E3)|]. eapply gains_trans; [exact G1|]. eapply gains_trans; [apply alike_gains, A2|exact G3].
      + remember {| ec_rc := S (ec_rc c1); ec_resolved := ec_resolved c1; ec_pending := ec_pending c1 |} as c2 eqn:E2. assert (A2 : alike c1 c2) by (subst c2; split; reflexivity).
        assert (G2 : gains c c2) by (eapply gains_trans; [exact G1|apply alike_gains, A2]).
        assert (Sc : sized [(a, t)] = []) by (unfold sized; cbn [flat_map fst snd]; destruct t; try reflexivity; discriminate).
        destruct (IH S2 B2 B4 buf src cd (autos ++ [(ec_rc c1, a, fun tg sr => enc_field (enc_complex p rf false a t) a t (is_cont t) tg sr cd)]) c2) as (i3 & c3 & E3 & G3).
        { intros x X. apply in_app_or in X as [X|[<-|[]]].
          - destruct (Au x X) as (P & W & K). split; [exact P|]. split; [apply (waits_alike _ _ _ A2); intros e' l' Ee Bb; destruct (W e' l' Ee Bb) as (n & N & U); exists n; rewrite Kn; auto|].
            intros e' l' Ee Bb n N. destruct (K e' l' Ee Bb n N) as [R|[S3 L]]; [left; apply G2, R|right; split; [apply G2, S3|]]. rewrite sized_cons, Sc in L. exact L.
          - split; [exists e, l; cbn [fst snd]; split; [exact Ca|]; split; [exact Bc|]|].
            + intros tg sr. apply (does_field _ keeps_alike). rewrite Pd. rewrite Pd in S1. intros tg' sr' b'.
              assert (Lf : leaf_ok t = true) by (destruct t; try exact S1; discriminate). destruct t; try discriminate; cbn [enc_complex]; apply (does_etype _ keeps_alike), Lf.
            + split.
              * intros e' l' Ee Bb. cbn [fst snd] in Ee. rewrite Ca in Ee. injection Ee as <-. rewrite Bc in Bb. injection Bb as <-. apply forallb_false in Al as (n & N & U). exists n. split; [exact N|]. unfold known_in. rewrite (proj1 A2). rewrite <- Kn in U. exact U.
              * intros e' l' Ee Bb n N. cbn [fst snd] in Ee. rewrite Ca in Ee. injection Ee as <-. rewrite Bc in Bb. injection Bb as <-. right. split; [apply (alike_gains _ _ A2), Sn, N|]. rewrite forallb_forall in B5. apply mem_in, B5, N. }
        do 2 eexists. split; [refine (bind_eq _ _ _ _ _ _ _ _ _ E0 (bind_eq _ _ _ _ _ _ _ _ _ E1 _)); cbv beta; eapply (bind_eq efresh _ c1 [] (ec_rc c1) c2); [unfold efresh; rewrite E2; reflexivity|]; cbv beta; eapply bind_eq; [reflexivity|]; cbv beta; exact E3|]. eapply gains_trans; [exact G2|exact G3].
  Qed.

  (** The frame of a container: its buffer before, its length after. *)
  Definition frame (a : fattr) (len : option expr) (tgt : target) (body : target -> egen unit) : egen unit :=
    do buf <- match len with
              | Some e => do b <- efresh; do pend <- epending (fa_name a); do _ <- (if pend then tell (NAllocDyn b) else do l <- eeval e; tell (NAllocBuf b l)); gret (Some b)
              | None => gret None
              end;
    do _ <- body (match buf with Some b => TBuf b | None => tgt end);
    match buf with
    | Some b =>
        do pend <- epending (fa_name a);
        do _ <- (if pend then do _ <- eunpend (fa_name a); do r <- efresh; do _ <- tell (NGetLen r b); ers_insert (fa_name a) r else gret tt);
        tell (NEmitBuf tgt b)
    | None => gret tt
    end.
  Lemma frame_ok a len tg items tgt (body : target -> egen unit) : (forall b, does gains (body b)) -> does (step (a, TCont len tg items)) (frame a len tgt body).
  Proof.
    intros H. unfold frame. destruct len as [e|].
    - intros c0. assert (E0 : exists i b c, (do b <- efresh; do pend <- epending (fa_name a); do _ <- (if pend then tell (NAllocDyn b) else do l <- eeval e; tell (NAllocBuf b l)); gret (Some b)) c0 = Some (i, Some b, c) /\ alike c0 c).
      { unfold gbind, efresh, epending, eeval, tell, gret. cbn [ec_pending]. destruct (mem (fa_name a) (ec_pending c0)); do 3 eexists; (split; [reflexivity|split; reflexivity]). }
      destruct E0 as (i0 & b & c & E0 & A0). destruct (H (TBuf b) c) as (i1 & u & c1 & E1 & G1).
      assert (Fin : exists i c2, (do pend <- epending (fa_name a); do _ <- (if pend then do _ <- eunpend (fa_name a); do r <- efresh; do _ <- tell (NGetLen r b); ers_insert (fa_name a) r else gret tt); tell (NEmitBuf tgt b)) c1 = Some (i, tt, c2) /\ gains c1 c2 /\ (seen c1 (fa_name a) -> res_in c2 (fa_name a))).
      { destruct (mem (fa_name a) (ec_pending c1)) eqn:Pd.
        - remember {| ec_rc := S (ec_rc c1); ec_resolved := (fa_name a, ec_rc c1) :: ec_resolved c1; ec_pending := filter (fun m => negb (String.eqb (fa_name a) m)) (ec_pending c1) |} as c2 eqn:E2. eexists. exists c2. split.
          { unfold gbind, epending, eunpend, efresh, tell, ers_insert, gret. rewrite Pd. cbn [ec_rc ec_resolved ec_pending]. rewrite <- E2. reflexivity. }
          assert (Rn : forall n, res_in c2 n <-> n = fa_name a \/ res_in c1 n).
          { intros n. subst c2. unfold res_in. cbn [ec_resolved]. rewrite lookup_cons. destruct (String.eqb (fa_name a) n) eqn:En; [apply String.eqb_eq in En; subst; split; [auto|discriminate]|]. apply String.eqb_neq in En. split; [auto|intros [K|K]; [congruence|exact K]]. }
          split; [|intros _; apply Rn; auto]. split; [intros n N; apply Rn; auto|]. intros n [N|N]; [|right; apply Rn; auto]. destruct (String.eqb_spec n (fa_name a)) as [->|Ne]; [right; apply Rn; auto|]. left. apply mem_in. apply mem_in in N. subst c2. cbn [ec_pending]. apply filter_In. split; [exact N|]. apply negb_true_iff, String.eqb_neq. congruence.
        - eexists. exists c1. split; [unfold gbind, epending, tell, gret; rewrite Pd; reflexivity|]. split; [apply gains_refl|]. intros [Sn|Sn]; [congruence|exact Sn]. }
      destruct Fin as (i2 & c2 & E2 & G2 & R2). do 3 eexists. split; [refine (bind_eq _ _ _ _ _ _ _ _ _ E0 _); cbv beta iota; refine (bind_eq _ _ _ _ _ _ _ _ _ E1 _); exact E2|].
      assert (G : gains c0 c1) by (eapply gains_trans; [apply alike_gains, A0|exact G1]). split; [eapply gains_trans; eassumption|]. intros n N Sn. unfold sized in N. cbn [flat_map fst snd] in N. destruct (fa_pad a); [destruct N|]. destruct N as [<-|[]]. apply R2, G, Sn.
    - eapply does_lift with (R := gains); [intros c1 c2 G; split; [exact G|intros n []]|]. intros c. destruct (H tgt c) as (i1 & u & c1 & E1 & G1). do 3 eexists. split; [eapply bind_eq; [reflexivity|]; cbv beta iota; eapply bind_eq; [exact E1|]; reflexivity|exact G1].
  Qed.
  Lemma all_egood : forall t, egood t.
  Proof.
    assert (L : forall t, is_cont t = false -> egood t).
    { intros t T Sh Bl a tgt src cd P. assert (Lf : leaf_ok t = true) by (destruct t; try exact Sh; discriminate). eapply does_lift with (R := alike).
      - intros c1 c2 A. split; [apply alike_gains, A|]. intros n N. unfold sized in N. destruct t; try discriminate; destruct N.
      - destruct t; try discriminate; cbn [enc_complex]; apply (does_etype _ keeps_alike), Lf. }
    induction t as [e| | | |d|d|n|n args|el l IH|len tg items IH] using ty_ind'; try (apply L; reflexivity).
    intros Sh Bl a tgt src cd P. cbn [shape] in Sh. apply andb_prop in Sh as [Tg Sh]. apply negb_true_iff in Tg. subst tg. cbn [blens_ok] in Bl. apply andb_prop in Bl as [B1 B2].
    apply (frame_ok a len false items tgt (fun b => do _ <- (if cd then enc_nullchecks items else gret tt); enc_items (map eitem_of items) b src cd [])).
    intros b. apply (does_bind _ keeps_gains); [destruct cd; [apply (does_nullchecks _ keeps_gains)|apply (does_ret _ keeps_gains)]|]. intros _ c. destruct (eitems_ok items IH Sh B1 B2 b src cd [] c) as (i & c' & E & G); [intros x []|]. exists i, tt, c'. auto.
  Qed.
  Lemma blen_items_calc : forall l, blen_items l = true -> forallb (fun f => calc_ok (fst f)) l = true.
  Proof.
    induction l as [|[a t] l IH]; intros H; cbn [blen_items forallb fst] in *; [reflexivity|]. apply andb_prop in H as [H1 H2]. rewrite (IH H2), andb_true_r. unfold blen_field in H1. unfold calc_ok. destruct (fa_calc a) as [e|]; [|reflexivity]. destruct (blen_calls e); [reflexivity|discriminate].
  Qed.
  Lemma blens_calc : forall t, blens_ok t = true -> is_cont t = true -> forallb (fun f => calc_ok (fst f)) (flatten_ty t) = true.
  Proof.
    induction t as [e| | | |d|d|n|n args|el l IH|len tg items IH] using ty_ind'; intros H C; try discriminate. rewrite flatten_ty_cont. cbn [blens_ok] in H. apply andb_prop in H as [H1 H2]. apply blen_items_calc in H1. clear C. unfold flatten_items.
    induction IH as [|[a t] items G _ IHl]; [reflexivity|]. cbn [forallb fst snd flat_map] in *. apply andb_prop in H1 as [H1 H3]. apply andb_prop in H2 as [H2 H4]. rewrite forallb_app, (IHl H3 H4), andb_true_r. unfold flatten_field. cbn [snd]. destruct (is_cont t) eqn:C; [apply G; auto|]. cbn. rewrite H1. reflexivity.
  Qed.
  Definition evitem_of (f : fattr * ty) : evitem :=
    (fst f, snd f, enc_complex p rf false (fst f) (snd f), match snd f with TCont _ _ sub => map (fun g => (fst g, snd g, enc_complex p rf false (fst g) (snd g))) sub | _ => [] end).
  Lemma variant_ok nm a t buf src : fa_pad a = false -> shape t = true -> blens_ok t = true -> does gains (enc_variant nm (evitem_of (a, t)) buf src).
  Proof.
    intros P Sh Bl. unfold enc_variant, evitem_of. cbn [fst snd]. apply (does_bind _ keeps_gains); [apply (does_fresh _ keeps_gains)|]. intros u. destruct (is_cont t) eqn:C.
    - apply (does_bind _ keeps_gains); [apply (does_names _ keeps_gains)|]. intros rs. apply (does_bind _ keeps_gains); [apply (does_tell _ keeps_gains)|]. intros _. apply (does_bind _ keeps_gains); [apply (does_setrefs _ keeps_gains)|]. intros _.
      apply (does_bind _ keeps_gains); [apply (does_calcs _ keeps_gains), blens_calc; assumption|]. intros _. destruct t as [| | | | | | | | |len tg sub]; try discriminate. cbn [shape blens_ok] in Sh, Bl. apply andb_prop in Sh as [_ Sh]. apply andb_prop in Bl as [B1 B2].
      apply (does_bind _ keeps_gains); [|intros _; apply (does_tell _ keeps_gains)]. intros c. destruct (eitems_ok sub) with (buf := buf) (src := src) (cd := false) (autos := @nil auto) (c := c) as (i & c' & E & G); [apply Forall_forall; intros f _; apply all_egood|assumption..|intros x []|]. exists i, tt, c'. split; [exact E|exact G].
    - apply (does_bind _ keeps_gains); [apply (does_tell _ keeps_gains)|]. intros _. apply (does_bind _ keeps_gains); [|intros _; apply (does_tell _ keeps_gains)]. apply (does_uncond _ keeps_gains). rewrite P. intros tg sr b. eapply does_lift; [|apply (all_egood t Sh Bl a tg sr b P)]. intros c1 c2 H. apply H.
  Qed.
  Lemma variants_ok_enc nm buf src : forall items, forallb (fun f => negb (fa_pad (fst f)) && shape (snd f)) items = true -> forallb (fun f => blens_ok (snd f)) items = true -> does gains (enc_variants nm (map evitem_of items) buf src).
  Proof.
    induction items as [|[a t] items IH]; intros Sh Bl; cbn [map enc_variants forallb fst snd] in *; [apply (does_ret _ keeps_gains)|]. apply andb_prop in Sh as [S1 S2]. apply andb_prop in S1 as [P S1]. apply negb_true_iff in P. apply andb_prop in Bl as [B1 B2]. cbn [evitem_of fst snd].
    pose proof (variant_ok nm a t buf src P S1 B1) as V. apply (does_bind _ keeps_gains); [unfold enc_cond; destruct (fa_cond a); [apply (does_bind _ keeps_gains); [apply (does_eval _ keeps_gains)|intros r]|]; apply (does_ret _ keeps_gains)|]. intros cd.
    apply (does_bind _ keeps_gains); [|intros _; apply (IH S2 B2)]. destruct cd; [|exact V]. apply (does_bind _ keeps_gains); [apply does_block, V|]. intros [body []]. apply (does_tell _ keeps_gains).
  Qed.
  Lemma enc_total d : decl_shape d = true -> decl_blens_ok d = true -> enc_code p rf d <> None.
  Proof.
    intros Sh Bl. unfold decl_shape in Sh. apply andb_prop in Sh as [P Sh]. apply negb_true_iff in P. unfold decl_blens_ok in Bl.
    assert (C : forall tgt src cd, does gains (enc_complex p rf true (d_attr d) (d_ty d) tgt src cd)).
    { intros tgt src cd. destruct (d_ty d) as [e| | | |e|e|n|n args|el l|len tg items] eqn:T; try (cbn [enc_complex]; apply (does_etype _ keeps_gains); exact Sh). eapply does_lift with (R := step (d_attr d, TCont len tg items)); [intros c1 c2 H; exact (proj1 H)|]. destruct tg.
      - apply (frame_ok (d_attr d) len true items tgt (fun b => do (body, _) <- block (enc_variants (fa_name (d_attr d)) (map evitem_of items) b src); tell (NBreakBlock body))).
        intros b. apply (does_bind _ keeps_gains); [apply does_block, variants_ok_enc; assumption|]. intros [body []]. apply (does_tell _ keeps_gains).
      - apply (frame_ok (d_attr d) len false items tgt (fun b => do _ <- (do _ <- enc_refs (flatten_items items) src; enc_calcs (flatten_items items)); enc_items (map eitem_of items) b src cd [])).
        pose proof (blens_calc (TCont len false items) Bl eq_refl) as Ca. rewrite flatten_ty_cont in Ca. cbn [shape blens_ok negb andb] in Sh, Bl. apply andb_prop in Bl as [B1 B2].
        intros b. apply (does_bind _ keeps_gains); [apply (does_bind _ keeps_gains); [apply (does_refs _ keeps_gains)|intros _; apply (does_calcs _ keeps_gains), Ca]|]. intros _ c.
        destruct (eitems_ok items) with (buf := b) (src := src) (cd := cd) (autos := @nil auto) (c := c) as (i & c' & E & G); [apply Forall_forall; intros f _; apply all_egood|assumption..|intros x []|]. exists i, tt, c'. auto. }
    assert (F : does gains (enc_top p rf d)).
    { unfold enc_top. apply (does_bind _ keeps_gains); [apply (does_fresh _ keeps_gains)|]. intros top.
      assert (E : forall t, t = d_ty d -> does gains (do _ <- match t with TCont _ _ _ | TEnum _ | TBits _ => gret tt | _ => tell (NGetField 0 0 [FTup]) end; enc_field (enc_complex p rf true (d_attr d) t) (d_attr d) t false TDirect top false)).
      { intros t ->. apply (does_bind _ keeps_gains); [destruct (d_ty d); first [apply (does_ret _ keeps_gains)|apply (does_tell _ keeps_gains)]|]. intros _. apply (does_field _ keeps_gains). rewrite P. exact C. }
      destruct (d_ty d) eqn:T; try exact (E _ eq_refl). apply (does_ret _ keeps_gains). }
    destruct (F {| ec_rc := 0; ec_resolved := []; ec_pending := [] |}) as (i & u & c' & E & _). unfold enc_code. rewrite E. discriminate.
  Qed.
End Enc.
(** Without blen nothing can be missing. *)
Lemma no_blens_ok : forall t, no_blens t = true -> blens_ok t = true.
Proof.
  induction t as [e| | | |d|d|n|n args|el l IH|len tg items IH] using ty_ind'; try reflexivity. cbn [no_blens blens_ok]. induction IH as [|[a t] items G _ IHl]; intros H; cbn [forallb blen_items fst snd] in *; [reflexivity|].
  apply andb_prop in H as [H1 H2]. apply andb_prop in H1 as [H1 H3]. specialize (IHl H2). apply andb_prop in IHl as [L1 L2]. rewrite L1, L2, (G H3). unfold no_blen_calc in H1. unfold blen_field. destruct (fa_calc a) as [e|]; [|reflexivity]. destruct (blen_calls e) as [[|]|]; try discriminate. reflexivity.
Qed.
