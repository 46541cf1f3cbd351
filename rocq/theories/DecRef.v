(** Refinement: the generated decoder does exactly what the reference semantics says.
    Facts about the generator (coder/decode/*.rs) and the emitted instructions
    (compiler/decoder.rs); statements are in P_Coder.v. *)
From Verif Require Import Spec.

(** ** Lists, registers, streams *)
Lemma bind_ok {E A B} (r : res E A) (f : A -> res E B) b : bind r f = Ok b -> exists a, r = Ok a /\ f a = Ok b.
Proof. destruct r; cbn; try discriminate. eauto. Qed.
Lemma bind_assoc {E A B C} (r : res E A) (f : A -> res E B) (g : B -> res E C) :
  bind (bind r f) g = bind r (fun a => bind (f a) g).
Proof. destruct r; reflexivity. Qed.
Lemma bind_ext {E A B} (r : res E A) (f g : A -> res E B) : (forall a, f a = g a) -> bind r f = bind r g.
Proof. intros H. destruct r; cbn; auto. Qed.

Lemma mapM_ext {E A B} (f g : A -> res E B) l : (forall a, f a = g a) -> mapM f l = mapM g l.
Proof. intros H. induction l as [|x l IH]; cbn; [reflexivity|]. rewrite H, IH. reflexivity. Qed.

Lemma skipn_skipn {A} a b (l : list A) : skipn a (skipn b l) = skipn (b + a) l.
Proof.
  revert l. induction b as [|b IH]; intros l; [reflexivity|].
  destruct l as [|x l]; [cbn; destruct a; reflexivity|]. cbn. apply IH.
Qed.

Lemma F2_impl {A B} (P Q : A -> B -> Prop) l l' : (forall a b, P a b -> Q a b) -> Forall2 P l l' -> Forall2 Q l l'.
Proof. intros H F. induction F; constructor; auto. Qed.
Lemma F2_rev {A B} (P : A -> B -> Prop) l l' : Forall2 P l l' -> Forall2 P (rev l) (rev l').
Proof. intros F. induction F; cbn; [constructor|]. apply Forall2_app; [assumption|]. constructor; [assumption|constructor]. Qed.

Lemma key_eqb_refl k : key_eqb k k = true.
Proof. destruct k; cbn; [apply Nat.eqb_refl|reflexivity]. Qed.
Lemma key_eqb_eq a b : key_eqb a b = true <-> a = b.
Proof.
  destruct a, b; cbn; split; intros H; try discriminate; try reflexivity.
  - apply Nat.eqb_eq in H. congruence.
  - injection H as ->. apply Nat.eqb_refl.
Qed.

Definition keys_in {A} (lo hi : nat) (l : list (nat * A)) : Prop := Forall (fun kv => (lo <= fst kv < hi)%nat) l.
Definition skeys_in {A} (lo hi : nat) (l : list (option nat * A)) : Prop :=
  Forall (fun kv => exists r, fst kv = Some r /\ (lo <= r < hi)%nat) l.

Lemma keys_in_weaken {A} lo hi lo' hi' (l : list (nat * A)) :
  keys_in lo hi l -> (lo' <= lo)%nat -> (hi <= hi')%nat -> keys_in lo' hi' l.
Proof. intros H ? ?. eapply Forall_impl; [|exact H]. cbn. intros. lia. Qed.
Lemma skeys_in_weaken {A} lo hi lo' hi' (l : list (option nat * A)) :
  skeys_in lo hi l -> (lo' <= lo)%nat -> (hi <= hi')%nat -> skeys_in lo' hi' l.
Proof. intros H ? ?. eapply Forall_impl; [|exact H]. cbn. intros ? (r & ? & ?). exists r. split; [assumption|lia]. Qed.
Lemma keys_in_app {A} lo hi (a b : list (nat * A)) : keys_in lo hi a -> keys_in lo hi b -> keys_in lo hi (a ++ b).
Proof. intros. apply Forall_app. split; assumption. Qed.
Lemma skeys_in_app {A} lo hi (a b : list (option nat * A)) : skeys_in lo hi a -> skeys_in lo hi b -> skeys_in lo hi (a ++ b).
Proof. intros. apply Forall_app. split; assumption. Qed.

Lemma assoc_app {A} r (a b : list (nat * A)) :
  assoc r (a ++ b) = match assoc r a with Some v => Some v | None => assoc r b end.
Proof. induction a as [|[k v] a IH]; cbn; [reflexivity|]. destruct (Nat.eqb r k); auto. Qed.
Lemma assoc_none {A} lo hi r (l : list (nat * A)) : keys_in lo hi l -> (r < lo \/ hi <= r)%nat -> assoc r l = None.
Proof.
  induction l as [|[k v] l IH]; intros H Hr; cbn; [reflexivity|].
  inversion H as [|? ? H1 H2]; subst. cbn in H1.
  destruct (Nat.eqb_spec r k); [lia|]. apply IH; assumption.
Qed.
Lemma assoc_some_in {A} r (l : list (nat * A)) v : assoc r l = Some v -> In (r, v) l.
Proof.
  induction l as [|[k x] l IH]; cbn; [discriminate|].
  destruct (Nat.eqb_spec r k) as [->|]; intros H; [left; congruence|right; auto].
Qed.

Lemma avail_consume k l : forall b n, avail k l = Some b -> avail k (consume k n l) = Some (skipn n b).
Proof.
  revert k. induction l as [|[k' s] l IH]; intros k b n; cbn; [discriminate|].
  destruct (key_eqb k k') eqn:E.
  - destruct s as [x|q m|q]; cbn; rewrite E; intros H.
    + injection H as <-. reflexivity.
    + destruct (avail q l) as [c|] eqn:Eq; [|discriminate]. injection H as <-.
      rewrite (IH q c n Eq). rewrite skipn_firstn_comm. reflexivity.
    + apply IH. exact H.
  - cbn. rewrite E. apply IH.
Qed.
Lemma consume_add k l : forall a b, consume k b (consume k a l) = consume k (a + b) l.
Proof.
  revert k. induction l as [|[k' s] l IH]; intros k a b; cbn; [reflexivity|].
  destruct (key_eqb k k') eqn:E.
  - destruct s as [x|q m|q]; cbn; rewrite E.
    + rewrite skipn_skipn. reflexivity.
    + rewrite IH. rewrite Nat.sub_add_distr. reflexivity.
    + rewrite IH. reflexivity.
  - cbn. rewrite E, IH. reflexivity.
Qed.
Lemma consume_0 k l : consume k 0 l = l.
Proof.
  revert k. induction l as [|[k' s] l IH]; intros k; cbn; [reflexivity|].
  destruct (key_eqb k k'); [|rewrite IH; reflexivity].
  destruct s; rewrite ?IH, ?Nat.sub_0_r; reflexivity.
Qed.
Lemma consume_length k n l : List.length (consume k n l) = List.length l.
Proof.
  revert k. induction l as [|[k' s] l IH]; intros k; cbn; [reflexivity|].
  destruct (key_eqb k k'); [|cbn; rewrite IH; reflexivity].
  destruct s; cbn; rewrite ?IH; reflexivity.
Qed.

(** A key a piece of code may use: older than anything the code allocates. *)
Definition old_key (hi : nat) (k : option nat) : Prop := forall r, k = Some r -> (r < hi)%nat.

Lemma skeys_neq {A} lo hi k (x : option nat * A) : old_key lo k ->
  (exists r, fst x = Some r /\ (lo <= r < hi)%nat) -> key_eqb k (fst x) = false.
Proof.
  intros Hk (r & E & Hr). destruct (key_eqb k (fst x)) eqn:Eq; [|reflexivity].
  apply key_eqb_eq in Eq. rewrite E in Eq. specialize (Hk r Eq). lia.
Qed.
Lemma consume_app lo hi k n g l : old_key lo k -> skeys_in lo hi g -> consume k n (g ++ l) = g ++ consume k n l.
Proof.
  intros Hk. induction g as [|[k' s] g IH]; intros H; [reflexivity|].
  inversion H as [|? ? H1 H2]; subst. pose proof (skeys_neq _ _ _ _ Hk H1) as E. cbn in *.
  rewrite E, IH by assumption. reflexivity.
Qed.
Lemma avail_app lo hi k g l : old_key lo k -> skeys_in lo hi g -> avail k (g ++ l) = avail k l.
Proof.
  intros Hk. induction g as [|[k' s] g IH]; intros H; [reflexivity|].
  inversion H as [|? ? H1 H2]; subst. pose proof (skeys_neq _ _ _ _ Hk H1) as E. cbn in *.
  rewrite E. auto.
Qed.
Lemma old_key_le a b k : old_key a k -> (a <= b)%nat -> old_key b k.
Proof. intros H ? r E. specialize (H r E). lia. Qed.

Lemma truncate_app {A} (g l : list A) n : List.length l = n -> truncate n (g ++ l) = l.
Proof.
  intros <-. unfold truncate. rewrite app_length.
  replace (List.length g + List.length l - List.length l)%nat with (List.length g) by lia.
  rewrite skipn_app, Nat.sub_diag, skipn_all2 by lia. reflexivity.
Qed.
Lemma truncate_id {A} (l : list A) : truncate (List.length l) l = l.
Proof. unfold truncate. rewrite Nat.sub_diag. reflexivity. Qed.

Lemma skipn_lt_length {A} j (l : list A) : (j <= List.length l)%nat -> (List.length l - List.length (skipn j l) = j)%nat.
Proof. intros. rewrite skipn_length. lia. Qed.

(** ** Evaluation depends only on the fields it looks up *)
Fixpoint rexpr_ind' (P : rexpr -> Prop)
  (HBin : forall op l r, P l -> P r -> P (RBin op l r))
  (HUn : forall op e, P e -> P (RUn op e)) (HAs : forall e t, P e -> P (RAs e t))
  (HRepr : forall e, P e -> P (RRepr e)) (HRaw : forall e, P e -> P (RRaw e))
  (HIndex : forall a i, P a -> P i -> P (RIndex a i))
  (HVar : forall d n, P (RVariant d n)) (HFlag : forall d n, P (RFlag d n))
  (HLit : forall c, P (RLit c)) (HName : forall n, P (RName n)) (HInput : forall n, P (RInput n))
  (HField : forall n, P (RField n)) (HBytes : forall b, P (RBytes b))
  (HIf : forall c a b, P c -> P a -> P b -> P (RIf c a b)) (HBool : forall b, P (RBoolLit b))
  (HCall : forall f args, Forall P args -> P (RCall f args))
  (HMember : forall e f, P e -> P (RMember e f)) (HInv : P RInvalid) (e : rexpr) : P e :=
  let rec := rexpr_ind' P HBin HUn HAs HRepr HRaw HIndex HVar HFlag HLit HName HInput HField HBytes HIf HBool HCall HMember HInv in
  match e with
  | RBin op l r => HBin op l r (rec l) (rec r)
  | RUn op e => HUn op e (rec e)
  | RAs e t => HAs e t (rec e)
  | RRepr e => HRepr e (rec e)
  | RRaw e => HRaw e (rec e)
  | RIndex a i => HIndex a i (rec a) (rec i)
  | RVariant d n => HVar d n
  | RFlag d n => HFlag d n
  | RLit c => HLit c
  | RName n => HName n
  | RInput n => HInput n
  | RField n => HField n
  | RBytes b => HBytes b
  | RIf c a b => HIf c a b (rec c) (rec a) (rec b)
  | RBoolLit b => HBool b
  | RCall f args => HCall f args
      ((fix go l : Forall P l := match l with [] => Forall_nil _ | x :: l => Forall_cons _ (rec x) (go l) end) args)
  | RMember e f => HMember e f (rec e)
  | RInvalid => HInv
  end.

Lemma reval_ext chk ufn f g inp : (forall n, f n = g n) -> forall r, reval chk ufn f inp r = reval chk ufn g inp r.
Proof.
  intros H. induction r using rexpr_ind'; cbn; try reflexivity;
    repeat match goal with E : reval _ _ _ _ _ = reval _ _ _ _ _ |- _ => rewrite E; clear E end; try reflexivity.
  - rewrite H. reflexivity.
  - match goal with |- bind ?x _ = bind ?y _ => replace x with y; [reflexivity|] end.
    match goal with F : Forall _ _ |- _ => induction F as [|x l E F IH] end; [reflexivity|].
    rewrite E, IH. reflexivity.
Qed.
Lemma eval_ext w inp f g e : (forall n, f n = g n) -> eval w inp f e = eval w inp g e.
Proof. intros. apply reval_ext. assumption. Qed.

(** ** The generator's contexts *)
Definition inv (hi : nat) (m : fmap) (rg : regs) (en : env) : Prop :=
  Forall (fun kv => (fst kv < hi)%nat) rg /\ Forall (fun kv => (snd kv < hi)%nat) m
  /\ forall n, lookup n en = match lookup n m with Some r => assoc r rg | None => None end.

Lemma lookup_cons {A} n k (a : A) l : lookup n ((k, a) :: l) = if String.eqb k n then Some a else lookup n l.
Proof. unfold lookup. cbn. destruct (String.eqb k n); reflexivity. Qed.
Lemma lookup_nil {A} n : lookup n (@nil (string * A)) = None.
Proof. reflexivity. Qed.
Lemma lookup_app {A} n (a b : list (string * A)) :
  lookup n (a ++ b) = match lookup n a with Some x => Some x | None => lookup n b end.
Proof.
  induction a as [|[k x] a IH]; [reflexivity|]. cbn [app]. rewrite !lookup_cons.
  destruct (String.eqb k n); [reflexivity|apply IH].
Qed.
Lemma lookup_some_in {A} n (l : list (string * A)) a : lookup n l = Some a -> In (n, a) l.
Proof.
  induction l as [|[k x] l IH]; [discriminate|]. rewrite lookup_cons.
  destruct (String.eqb_spec k n) as [->|]; intros H; [left; congruence|right; auto].
Qed.
Opaque lookup.
Arguments gbind : simpl never.

Lemma inv_ext hi hi' m rg en new : inv hi m rg en -> keys_in hi hi' new -> (hi <= hi')%nat -> inv hi' m (new ++ rg) en.
Proof.
  intros (A & B & C) K L. split; [|split].
  - apply Forall_app. split.
    + eapply Forall_impl; [|exact K]. cbn. intros. lia.
    + eapply Forall_impl; [|exact A]. cbn. intros. lia.
  - eapply Forall_impl; [|exact B]. cbn. intros. lia.
  - intros n. rewrite C. destruct (lookup n m) as [r|] eqn:E; [|reflexivity].
    apply lookup_some_in in E. rewrite Forall_forall in B. apply B in E. cbn in E.
    rewrite assoc_app, (assoc_none hi hi' r new K) by lia. reflexivity.
Qed.
Lemma inv_mono hi hi' m rg en : inv hi m rg en -> (hi <= hi')%nat -> inv hi' m rg en.
Proof. intros H L. apply (inv_ext hi hi' m rg en []); [assumption|constructor|assumption]. Qed.

  Lemma assoc_map_rev (f : nat -> val) em r : In r em -> assoc r (rev (map (fun r => (r, f r)) em)) = Some (f r).
  Proof.
    induction em as [|x em IH]; cbn; [contradiction|]. intros H. rewrite assoc_app.
    destruct (in_dec Nat.eq_dec r em) as [Hi|Hi].
    - rewrite IH by assumption. reflexivity.
    - destruct H as [->|H]; [|contradiction].
      replace (assoc r (rev (map (fun r => (r, f r)) em))) with (@None val).
      { cbn. rewrite Nat.eqb_refl. reflexivity. }
      symmetry. clear IH. assert (Hn : ~ In r (map fst (rev (map (fun r => (r, f r)) em)))).
      { rewrite map_rev, map_map, map_id. intros X. apply in_rev in X. contradiction. }
      revert Hn. generalize (rev (map (fun r => (r, f r)) em)). intros L.
      induction L as [|[q z] L IH]; cbn; [reflexivity|]. intros Hn.
      destruct (Nat.eqb_spec r q) as [->|]; [exfalso; apply Hn; left; reflexivity|apply IH; tauto].
  Qed.
  Lemma keys_in_map lo hi (f : nat -> val) em : Forall (fun r => (lo <= r < hi)%nat) em ->
    keys_in lo hi (rev (map (fun r => (r, f r)) em)).
  Proof. intros H. apply Forall_rev. rewrite Forall_map. cbn. assumption. Qed.


(** The environment after inserting the registers [em] of the fields [names]. *)
Lemma inv_insert hi hi' m rg en names em vs new : inv hi m rg en -> (hi <= hi')%nat -> keys_in hi hi' new ->
  Forall (fun r => (hi <= r < hi')%nat) em ->
  map fst vs = names -> Forall2 (fun r nv => assoc r new = Some (snd nv)) em vs ->
  inv hi' (rev (combine names em) ++ m) (new ++ rg) (rev vs ++ en).
Proof.
  intros HI L K Hem Hn HF. destruct (inv_ext _ _ _ _ _ _ HI K L) as (A & B & C).
  split; [exact A|]. split.
  - apply Forall_app. split; [|exact B]. apply Forall_rev. apply Forall_forall. intros [n r] Hin. cbn.
    apply in_combine_r in Hin. rewrite Forall_forall in Hem. apply Hem in Hin. lia.
  - assert (HP : Forall2 (fun nr nv => fst nr = fst nv /\ assoc (snd nr) (new ++ rg) = Some (snd nv)) (rev (combine names em)) (rev vs)).
    { apply F2_rev. subst names. clear - HF. induction HF as [|r nv em vs H HF IH]; cbn; constructor; [|exact IH].
      cbn. split; [reflexivity|]. rewrite assoc_app, H. reflexivity. }
    intros n. revert HP. generalize (rev (combine names em)) (rev vs). intros cm rv HP.
    induction HP as [|[n0 r0] [n1 v1] cm rv (E1 & E2) HP IH]; cbn [app]; [apply C|].
    cbn in E1, E2. subst n1. rewrite !lookup_cons. destruct (String.eqb n0 n); [symmetry; exact E2|exact IH].
Qed.

(** Types in which the alternatives of a tagged enum occur only at the top. *)
Fixpoint untagged (t : ty) : bool :=
  match t with
  | TCont _ tg items => negb tg && forallb (fun f => untagged (snd f)) items
  | _ => true
  end.

Lemma leaf_names_app a b : leaf_names (a ++ b) = leaf_names a ++ leaf_names b.
Proof. unfold leaf_names. rewrite filter_app, map_app. reflexivity. Qed.
Lemma leaf_names_items items : leaf_names (flatten_items items) = flat_map (fun f => leaf_names (flatten_field f)) items.
Proof. unfold flatten_items. induction items as [|f items IH]; [reflexivity|]. cbn [flat_map]. rewrite leaf_names_app, IH. reflexivity. Qed.
Lemma combine_app {A B} (a a' : list A) (b b' : list B) : List.length a = List.length b -> combine (a ++ a') (b ++ b') = combine a b ++ combine a' b'.
Proof. revert b. induction a as [|x a IH]; intros [|y b] E; try discriminate; [reflexivity|]. cbn. rewrite IH by (cbn in E; lia). reflexivity. Qed.

Lemma skipn_limit (n j : nat) (l : list Z) : (j <= List.length (firstn n l))%nat -> skipn j (firstn n l) ++ skipn n l = skipn j l.
Proof.
  intros H. rewrite <- (firstn_skipn n l) at 3. rewrite skipn_app.
  replace (j - List.length (firstn n l))%nat with O by lia. reflexivity.
Qed.

Section Dec.
  Variable w : world.
  Variable p : program.
  Variable rf : nat.
  Variable inputs : string -> option val.
  Variable rec srec : string -> list val -> list Z -> res ioerr (val * list Z).
  Hypothesis Hrec : forall n vs l, rec n vs l = srec n vs l.
  Definition suffixing {A} (f : list Z -> res ioerr (A * list Z)) : Prop :=
    forall l a rest, f l = Ok (a, rest) -> exists j, (j <= List.length l)%nat /\ rest = skipn j l.
  Hypothesis Hsuf : forall n vs, suffixing (srec n vs).
  Hypothesis Hfsuf : forall n vs, suffixing (w_fdec w n vs).
  Hypothesis Hxsuf : forall n vs, suffixing (w_xdec w n vs).

  Notation dseq := (dseq w inputs rec).
  Notation drun := (drun w inputs rec).
  Notation ev := (ev w inputs).

  Lemma dseq_app a b st :
    dseq (a ++ b) st = let! o := dseq a st in match o with DNext st => dseq b st | DRet v st => Ok (DRet v st) end.
  Proof.
    revert st. induction a as [|i a IH]; intros st; [reflexivity|].
    cbn [app Decode.dseq]. destruct (drun i st) as [[st'|v st']| | |]; cbn [bind]; try reflexivity. apply IH.
  Qed.
  Lemma dseq_one i st : dseq [i] st = drun i st.
  Proof. cbn. destruct (drun i st) as [[|]| | |]; reflexivity. Qed.

  Lemma eval_inv hi m rg en e : inv hi m rg en ->
    eval w inputs (fun n => match lookup n m with Some r => assoc r rg | None => None end) e = ev en e.
  Proof. intros (_ & _ & C). apply eval_ext. intros n. symmetry. apply C. Qed.

  (** ** What a piece of generated code has to do *)

  (** [code], started in [st] with [l] to read at [src], behaves as the reference
      result [r] says; what it adds to the state is [new] registers and streams [g]
      with numbers between [lo] and [hi], and it takes the bytes [r] takes. *)
  Definition sim {A} (code : list dinstr) (src : option nat) (lo hi : nat) (st : dst) (l : list Z)
      (r : res ioerr (A * list Z)) (Q : A -> regs -> option val -> Prop) : Prop :=
    match r with
    | Ok (a, rest) =>
        exists j new g ret,
          (j <= List.length l)%nat /\ rest = skipn j l
          /\ keys_in lo hi new /\ skeys_in lo hi g
          /\ (let st' := {| ds_regs := new ++ ds_regs st; ds_strs := g ++ consume src j (ds_strs st) |} in
              dseq code st = Ok (match ret with None => DNext st' | Some v => DRet v st' end))
          /\ Q a new ret
    | Err e => dseq code st = Err e
    | Panic => dseq code st = Panic
    | Hang => dseq code st = Hang
    end.

  (** *** Expressions *)
  Lemma deval_spec e c is r c' : deval e c = Some (is, r, c') ->
    is = [DEval r e (dc_map c)] /\ r = dc_rc c /\ dc_rc c' = S (dc_rc c) /\ dc_map c' = dc_map c.
  Proof. intros H. cbv in H. injection H as <- <- <-. auto. Qed.
  Lemma deval_run e m r st en hi : inv hi m (ds_regs st) en ->
    dseq [DEval r e m] st = let! v := ev en e in Ok (DNext (dlet r v st)).
  Proof. intros H. rewrite dseq_one. cbn. rewrite (eval_inv hi m _ en) by assumption. reflexivity. Qed.

  Lemma devals_spec es : forall c is rs c', devals es c = Some (is, rs, c') ->
    (dc_rc c <= dc_rc c')%nat /\ dc_map c' = dc_map c /\
    forall st en, inv (dc_rc c) (dc_map c) (ds_regs st) en ->
      match mapM (ev en) es with
      | Ok vs => exists new, keys_in (dc_rc c) (dc_rc c') new
          /\ dseq is st = Ok (DNext {| ds_regs := new ++ ds_regs st; ds_strs := ds_strs st |})
          /\ mapM (fun r => of_some (assoc r (new ++ ds_regs st))) rs = Ok vs
      | Err e => dseq is st = Err e | Panic => dseq is st = Panic | Hang => dseq is st = Hang
      end.
  Proof.
    induction es as [|e es IH]; intros c is rs c' H; cbn [devals] in H.
    - cbv [gret] in H. injection H as <- <- <-. split; [lia|]. split; [reflexivity|]. intros st en _. cbn.
      exists []. split; [constructor|]. split; [destruct st; reflexivity|reflexivity].
    - apply gbind_some in H as (i1 & r & c1 & i2 & H1 & H2 & ->).
      apply gbind_some in H2 as (i3 & rs' & c2 & i4 & H2 & H3 & ->).
      cbv in H3. injection H3 as <- <- <-. rewrite app_nil_r.
      apply deval_spec in H1 as (-> & -> & E1 & E2).
      apply IH in H2 as (L & M & R). rewrite E1, E2 in *.
      split; [lia|]. split; [assumption|]. intros st en HI. cbn [mapM].
      rewrite dseq_app, (deval_run e _ _ st en _ HI).
      destruct (ev en e) as [v| | |] eqn:Ev; cbn [bind]; try reflexivity.
      specialize (R (dlet (dc_rc c) v st) en).
      assert (HI' : inv (S (dc_rc c)) (dc_map c) (ds_regs (dlet (dc_rc c) v st)) en).
      { apply (inv_ext (dc_rc c) (S (dc_rc c)) (dc_map c) (ds_regs st) en [(dc_rc c, v)]); [assumption| |lia].
        constructor; [cbn; lia|constructor]. }
      specialize (R HI').
      destruct (mapM (ev en) es) as [vs| | |]; cbn [bind]; try exact R.
      destruct R as (new & K & R1 & R2). exists (new ++ [(dc_rc c, v)]).
      rewrite R1. cbn [dlet ds_regs ds_strs] in *. rewrite <- !app_assoc. cbn [app]. split; [|split].
      + apply keys_in_app; [eapply keys_in_weaken; [exact K| |]; lia|]. constructor; [cbn; lia|constructor].
      + reflexivity.
      + cbn [mapM]. rewrite R2. rewrite assoc_app, (assoc_none _ _ _ new K) by lia.
        cbn [assoc]. rewrite Nat.eqb_refl. reflexivity.
  Qed.

  (** *** Streams *)
  Lemma dtake_run {A} s (f : list Z -> res ioerr (A * list Z)) st l : avail (key s) (ds_strs st) = Some l -> suffixing f ->
    match f l with
    | Ok (a, rest) => exists j, (j <= List.length l)%nat /\ rest = skipn j l /\ dtake s f st = Ok (a, dskip s j st)
    | Err e => dtake s f st = Err e | Panic => dtake s f st = Panic | Hang => dtake s f st = Hang
    end.
  Proof.
    intros H Hf. unfold dtake, davail. rewrite H. cbn [of_some bind].
    destruct (f l) as [[a rest]| | |] eqn:E; cbn [bind]; try reflexivity.
    apply Hf in E as (j & L & ->). exists j. split; [assumption|]. split; [reflexivity|].
    rewrite skipn_lt_length by assumption. reflexivity.
  Qed.
  Lemma read_exact_suffix n : suffixing (read_exact n).
  Proof.
    intros l a rest. unfold read_exact. destruct (Nat.leb_spec n (List.length l)); [|discriminate].
    intros E. injection E as <- <-. exists n. auto.
  Qed.
  Lemma suffixing_bind {A B} (f : list Z -> res ioerr (A * list Z)) (g : A -> res ioerr B) :
    suffixing f -> suffixing (fun l => let! (a, rest) := f l in let! b := g a in Ok (b, rest)).
  Proof.
    intros Hf l b rest H. apply bind_ok in H as ([a r0] & E1 & E2). apply bind_ok in E2 as (b' & E2 & E3).
    injection E3 as <- <-. eapply Hf. exact E1.
  Qed.

  (** An instruction that takes something from a stream into a register. *)
  Lemma sim_take (f : list Z -> res ioerr (val * list Z)) i s r hi st l :
    drun i st = (let! (v, st) := dtake s f st in Ok (DNext (dlet r v st))) ->
    avail (key s) (ds_strs st) = Some l -> suffixing f -> (r < hi)%nat ->
    sim [i] (key s) r hi st l (f l) (fun v new ret => ret = None /\ assoc r new = Some v).
  Proof.
    intros Hi Ha Hf Hr. pose proof (dtake_run s f st l Ha Hf) as H. unfold sim. rewrite !dseq_one, !Hi.
    destruct (f l) as [[v rest]| | |]; try (rewrite H; reflexivity).
    destruct H as (j & L & E & D). exists j, [(r, v)], [], None. rewrite D. cbn.
    rewrite Nat.eqb_refl. repeat split; auto. all: try (constructor; [cbn; lia|constructor]). constructor.
  Qed.

  Lemma sim_weaken {A} code s lo hi lo' hi' st l (r : res ioerr (A * list Z)) (Q Q' : A -> regs -> option val -> Prop) :
    sim code s lo hi st l r Q -> (lo' <= lo)%nat -> (hi <= hi')%nat ->
    (forall a new ret, keys_in lo hi new -> Q a new ret -> Q' a new ret) -> sim code s lo' hi' st l r Q'.
  Proof.
    unfold sim. destruct r as [[a rest]| | |]; auto.
    intros (j & new & g & ret & H1 & H2 & H3 & H4 & H5 & H6) L1 L2 HQ.
    exists j, new, g, ret. repeat split; auto; [eapply keys_in_weaken|eapply skeys_in_weaken]; eauto.
  Qed.

  (** Code run after something that only adds registers. *)
  Lemma sim_after {A} pre new0 code s lo mid hi st l (r : res ioerr (A * list Z)) (Q Q' : A -> regs -> option val -> Prop) :
    dseq pre st = Ok (DNext {| ds_regs := new0 ++ ds_regs st; ds_strs := ds_strs st |}) ->
    keys_in lo mid new0 -> (lo <= mid)%nat -> (mid <= hi)%nat ->
    sim code s mid hi {| ds_regs := new0 ++ ds_regs st; ds_strs := ds_strs st |} l r Q ->
    (forall a new ret, keys_in mid hi new -> Q a new ret -> Q' a (new ++ new0) ret) ->
    sim (pre ++ code) s lo hi st l r Q'.
  Proof.
    intros E K L1 L2 H HQ. unfold sim in *. cbn [ds_regs ds_strs] in *. rewrite !dseq_app, !E. cbn [bind].
    destruct r as [[a rest]| | |]; auto.
    destruct H as (j & new & g & ret & H1 & H2 & H3 & H4 & H5 & H6).
    exists j, (new ++ new0), g, ret. rewrite <- app_assoc.
    repeat split; auto.
    - apply keys_in_app; eapply keys_in_weaken; eauto.
    - eapply skeys_in_weaken; eauto.
  Qed.

  (** *** Arrays *)
  Lemma assign_skip lo hi out f (new : regs) v v' rg :
    keys_in lo hi new -> (out < lo)%nat -> f v = Some v' ->
    assign out f (new ++ (out, v) :: rg) = Some (new ++ (out, v') :: rg).
  Proof.
    intros K L F. induction new as [|[k x] new IH]; cbn.
    - rewrite Nat.eqb_refl, F. reflexivity.
    - inversion K as [|? ? K1 K2]; subst. cbn in K1. destruct (Nat.eqb_spec out k); [lia|].
      rewrite IH by assumption. reflexivity.
  Qed.

  Section Loop.
    Variables (el : list Z -> res ioerr (val * list Z)) (s : target) (out item : nat) (isr : list dinstr)
              (lo hi : nat) (m : fmap) (en : env).
    Hypothesis Hout : (out < lo)%nat.
    Hypothesis Hel : forall st l, inv lo m (ds_regs st) en -> avail (key s) (ds_strs st) = Some l ->
      sim isr (key s) lo hi st l (el l) (fun v new ret => ret = None /\ assoc item new = Some v).

    Let body := isr ++ [DLoopOut out item].
    Definition iter (st : dst) : res ioerr dout :=
      let! o := dseq body st in match o with DNext st' => Ok (DNext (dleave st st')) | o => Ok o end.

    Definition lst (acc : list val) rg ss := {| ds_regs := (out, VArr acc) :: rg; ds_strs := ss |}.

    Lemma iter_ok acc rg ss l : inv lo m ((out, VArr acc) :: rg) en -> avail (key s) ss = Some l ->
      match el l with
      | Ok (v, rest) => exists j, (j <= List.length l)%nat /\ rest = skipn j l
          /\ iter (lst acc rg ss) = Ok (DNext (lst (acc ++ [v]) rg (consume (key s) j ss)))
      | Err e => iter (lst acc rg ss) = Err e | Panic => iter (lst acc rg ss) = Panic | Hang => iter (lst acc rg ss) = Hang
      end.
    Proof.
      intros HI Ha. pose proof (Hel (lst acc rg ss) l HI Ha) as H. unfold sim in H.
      unfold iter. subst body. rewrite dseq_app.
      destruct (el l) as [[v rest]| | |]; try (rewrite H; reflexivity).
      destruct H as (j & new & g & ret & H1 & H2 & H3 & H4 & H5 & -> & H6).
      exists j. split; [assumption|]. split; [assumption|]. cbn [lst ds_regs ds_strs] in *.
      rewrite H5. cbn [bind]. rewrite dseq_one. cbn [Decode.drun ds_regs ds_strs].
      unfold dreg. cbn [ds_regs]. rewrite assoc_app, H6. cbn [of_some bind].
      rewrite (assign_skip lo hi out _ new (VArr acc) (VArr (acc ++ [v])) rg) by (assumption || reflexivity).
      cbn [of_some bind]. unfold dleave. cbn [ds_regs ds_strs lst].
      rewrite !truncate_app; [reflexivity|rewrite consume_length; reflexivity|reflexivity].
    Qed.

    Hypothesis Hrg : forall acc rg, inv lo m ((out, VArr []) :: rg) en -> inv lo m ((out, VArr acc) :: rg) en.

    Lemma for_ok n : forall acc rg ss l, inv lo m ((out, VArr []) :: rg) en -> avail (key s) ss = Some l ->
      match sd_times el n l with
      | Ok (vs, rest) => exists j, (j <= List.length l)%nat /\ rest = skipn j l
          /\ for_loop n iter (lst acc rg ss) = Ok (DNext (lst (acc ++ vs) rg (consume (key s) j ss)))
      | Err e => for_loop n iter (lst acc rg ss) = Err e
      | Panic => for_loop n iter (lst acc rg ss) = Panic | Hang => for_loop n iter (lst acc rg ss) = Hang
      end.
    Proof.
      induction n as [|n IH]; intros acc rg ss l HI Ha; cbn [sd_times for_loop].
      - exists O. split; [lia|]. split; [reflexivity|]. rewrite app_nil_r, consume_0. reflexivity.
      - pose proof (iter_ok acc rg ss l (Hrg acc rg HI) Ha) as H.
        destruct (el l) as [[v rest]| | |]; cbn [bind]; try (rewrite H; reflexivity).
        destruct H as (j & L & -> & ->). cbn [bind].
        specialize (IH (acc ++ [v]) rg (consume (key s) j ss) (skipn j l) HI (avail_consume _ _ _ _ Ha)).
        destruct (sd_times el n (skipn j l)) as [[vs rest]| | |]; cbn [bind]; try exact IH.
        destruct IH as (j' & L' & -> & E). exists (j + j')%nat. rewrite skipn_length in L'. split; [lia|].
        split; [rewrite skipn_skipn; reflexivity|]. rewrite E, consume_add, <- app_assoc. reflexivity.
    Qed.

    Lemma while_ok fuel : forall acc rg ss l, inv lo m ((out, VArr []) :: rg) en -> avail (key s) ss = Some l ->
      match sd_all el fuel l with
      | Ok vs => while_loop fuel s iter (lst acc rg ss) = Ok (DNext (lst (acc ++ vs) rg (consume (key s) (List.length l) ss)))
      | Err e => while_loop fuel s iter (lst acc rg ss) = Err e
      | Panic => while_loop fuel s iter (lst acc rg ss) = Panic | Hang => while_loop fuel s iter (lst acc rg ss) = Hang
      end.
    Proof.
      induction fuel as [|fuel IH]; intros acc rg ss l HI Ha; [reflexivity|].
      assert (HW : while_loop (S fuel) s iter (lst acc rg ss) =
        match l with
        | [] => Ok (DNext (lst acc rg ss))
        | _ =>
            let! o := iter (lst acc rg ss) in
            match o with
            | DRet v st => Ok (DRet v st)
            | DNext st' =>
                let! l' := davail s st' in
                if (List.length l' <? List.length l)%nat then while_loop fuel s iter st' else Hang
            end
        end).
      { cbn [while_loop]. unfold davail at 1. cbn [lst ds_strs]. rewrite Ha. reflexivity. }
      rewrite !HW. clear HW. cbn [sd_all].
      destruct l as [|x l]; [cbn; rewrite app_nil_r, consume_0; reflexivity|].
      remember (x :: l) as l0. clear Heql0 x l.
      pose proof (iter_ok acc rg ss l0 (Hrg acc rg HI) Ha) as H.
      destruct (el l0) as [[v rest]| | |]; cbn [bind]; try (rewrite H; reflexivity).
      destruct H as (j & L & -> & ->). cbn [bind]. unfold davail. cbn [lst ds_strs].
      rewrite (avail_consume _ _ _ _ Ha). cbn [of_some bind].
      destruct (List.length (skipn j l0) <? List.length l0)%nat; [|reflexivity].
      specialize (IH (acc ++ [v]) rg (consume (key s) j ss) (skipn j l0) HI (avail_consume _ _ _ _ Ha)).
      destruct (sd_all el fuel (skipn j l0)) as [vs| | |]; cbn [bind]; try exact IH.
      rewrite IH, consume_add, <- app_assoc, skipn_length. do 4 f_equal. cbn [app]. f_equal. lia.
    Qed.

    Lemma term_ok fill term fuel : forall acc rg ss l, inv lo m ((out, VArr []) :: rg) en -> avail (key s) ss = Some l ->
      match sd_until fill term el fuel l with
      | Ok (vs, rest) => exists j, (j <= List.length l)%nat /\ rest = skipn j l
          /\ term_loop fill fuel s term iter (lst acc rg ss) = Ok (DNext (lst (acc ++ vs) rg (consume (key s) j ss)))
      | Err e => term_loop fill fuel s term iter (lst acc rg ss) = Err e
      | Panic => term_loop fill fuel s term iter (lst acc rg ss) = Panic
      | Hang => term_loop fill fuel s term iter (lst acc rg ss) = Hang
      end.
    Proof.
      induction fuel as [|fuel IH]; intros acc rg ss l HI Ha; [reflexivity|].
      assert (HW : term_loop fill (S fuel) s term iter (lst acc rg ss) =
        let buf := firstn (fill (List.length l)) l in
        if (List.length buf =? 0)%nat then Ok (DNext (lst acc rg ss))
        else if (List.length buf <? List.length term)%nat then Hang
        else if zlist_eqb (firstn (List.length term) buf) term then Ok (DNext (dskip s (List.length term) (lst acc rg ss)))
        else
          let! o := iter (lst acc rg ss) in
          match o with
          | DRet v st => Ok (DRet v st)
          | DNext st' =>
              let! l' := davail s st' in
              if (List.length l' <? List.length l)%nat then term_loop fill fuel s term iter st' else Hang
          end).
      { cbn [term_loop]. unfold davail at 1. cbn [lst ds_strs]. rewrite Ha. reflexivity. }
      rewrite !HW. clear HW. cbn [sd_until].
      set (buf := firstn (fill (List.length l)) l).
      destruct (Nat.eqb_spec (List.length buf) 0) as [Eb|Eb].
      { exists O. split; [lia|]. split; [reflexivity|]. rewrite app_nil_r, consume_0. reflexivity. }
      destruct (Nat.ltb_spec (List.length buf) (List.length term)) as [Lt|Lt]; [reflexivity|].
      assert (Lb : (List.length buf <= List.length l)%nat) by (subst buf; rewrite firstn_length; lia).
      destruct (zlist_eqb (firstn (List.length term) buf) term).
      { exists (List.length term). split; [lia|]. split; [reflexivity|]. rewrite app_nil_r. reflexivity. }
      pose proof (iter_ok acc rg ss l (Hrg acc rg HI) Ha) as H.
      destruct (el l) as [[v rest]| | |]; cbn [bind]; try (rewrite H; reflexivity).
      destruct H as (j & L & -> & ->). cbn [bind]. unfold davail. cbn [lst ds_strs].
      rewrite (avail_consume _ _ _ _ Ha). cbn [of_some bind].
      destruct (List.length (skipn j l) <? List.length l)%nat; [|reflexivity].
      specialize (IH (acc ++ [v]) rg (consume (key s) j ss) (skipn j l) HI (avail_consume _ _ _ _ Ha)).
      destruct (sd_until fill term el fuel (skipn j l)) as [[vs rest]| | |]; cbn [bind]; try exact IH.
      destruct IH as (j' & L' & -> & E). exists (j + j')%nat. rewrite skipn_length in L'. split; [lia|].
      split; [rewrite skipn_skipn; reflexivity|]. rewrite E, consume_add, <- app_assoc. reflexivity.
    Qed.
  End Loop.

  (** One evaluation in front. *)
  Lemma sim_eval {A} e m r hi en code s st l (f : val -> res ioerr (A * list Z)) (Q Q' : A -> regs -> option val -> Prop) :
    inv r m (ds_regs st) en -> (r < hi)%nat ->
    (forall v, sim code s (S r) hi {| ds_regs := (r, v) :: ds_regs st; ds_strs := ds_strs st |} l (f v) Q) ->
    (forall v a new ret, keys_in (S r) hi new -> Q a new ret -> Q' a (new ++ [(r, v)]) ret) ->
    sim (DEval r e m :: code) s r hi st l (let! v := ev en e in f v) Q'.
  Proof.
    intros HI L H HQ. change (DEval r e m :: code) with ([DEval r e m] ++ code).
    destruct (ev en e) as [v| | |] eqn:E; cbn [bind].
    2-4: unfold sim; rewrite dseq_app, (deval_run e m r st en r HI), E; reflexivity.
    eapply (sim_after [DEval r e m] [(r, v)] code s r (S r) hi).
    - rewrite (deval_run e m r st en r HI), E. reflexivity.
    - constructor; [cbn; lia|constructor].
    - lia.
    - lia.
    - apply H.
    - intros. eapply HQ; eauto.
  Qed.

  Definition reads (r : nat) : val -> regs -> option val -> Prop := fun v new ret => ret = None /\ assoc r new = Some v.
  Lemma reads_app r v new new0 ret : reads r v new ret -> reads r v (new ++ new0) ret.
  Proof. intros (-> & H). split; [reflexivity|]. rewrite assoc_app, H. reflexivity. Qed.

  Definition tspec (g : target -> dgen nat) (f : env -> list Z -> res ioerr (val * list Z)) : Prop :=
    forall src c is r c', g src c = Some (is, r, c') ->
      (dc_rc c <= r < dc_rc c')%nat /\ dc_map c' = dc_map c /\
      forall st en l, inv (dc_rc c) (dc_map c) (ds_regs st) en -> avail (key src) (ds_strs st) = Some l ->
        sim is (key src) (dc_rc c) (dc_rc c') st l (f en l) (reads r).

  Lemma read_prims_suffix pr n : suffixing (read_prims pr n).
  Proof. intros l a rest H. unfold read_prims in H. apply bind_ok in H as ([raw r0] & E & H). injection H as <- <-. eapply read_exact_suffix; exact E. Qed.
  Lemma read_reprs_suffix d n : suffixing (read_reprs d n).
  Proof.
    intros l a rest H. unfold read_reprs in H. apply bind_ok in H as ([raw r0] & E & H).
    apply bind_ok in H as (vs & _ & H). injection H as <- <-. eapply read_exact_suffix; exact E.
  Qed.
  Lemma pre_suffix {A B} (o : res ioerr A) (f : A -> list Z -> res ioerr (B * list Z)) :
    (forall a, suffixing (f a)) -> suffixing (fun l => let! a := o in f a l).
  Proof. intros H l b rest E. apply bind_ok in E as (a & _ & E). eapply H; exact E. Qed.
  Lemma all_suffix {A} (f : list Z -> res ioerr A) : suffixing (fun l => let! a := f l in Ok (a, [])).
  Proof.
    intros l a rest H. apply bind_ok in H as (x & _ & H). injection H as <- <-.
    exists (List.length l). split; [lia|]. rewrite skipn_all. reflexivity.
  Qed.
  Lemma dtake_pre {A B} s (o : res ioerr A) (f : A -> list Z -> res ioerr (B * list Z)) st l :
    avail (key s) (ds_strs st) = Some l ->
    dtake s (fun l => let! a := o in f a l) st = let! a := o in dtake s (f a) st.
  Proof. intros H. unfold dtake, davail. rewrite H. destruct o; reflexivity. Qed.

  Lemma inv_cons r hi m rg en v : inv r m rg en -> (r < hi)%nat -> inv hi m ((r, v) :: rg) en.
  Proof. intros H L. apply (inv_ext r hi m rg en [(r, v)] H); [|lia]. constructor; [cbn; lia|constructor]. Qed.

  Lemma dfresh_spec c is r c' : dfresh c = Some (is, r, c') ->
    is = [] /\ r = dc_rc c /\ dc_rc c' = S (dc_rc c) /\ dc_map c' = dc_map c.
  Proof. intros H. cbv in H. injection H as <- <- <-. auto. Qed.
  Lemma tell_spec (i : dinstr) (c : dctx) is u c' : tell i c = Some (is, u, c') -> is = [i] /\ c' = c.
  Proof. intros H. cbv in H. injection H as <- <- <-. auto. Qed.
  Lemma gret_spec {A} (a : A) (c : dctx) (is : list dinstr) b c' : gret a c = Some (is, b, c') -> is = [] /\ b = a /\ c' = c.
  Proof. intros H. cbv in H. injection H as <- <- <-. auto. Qed.

  Tactic Notation "gi" hyp(H) "as" ident(a) ident(c1) ident(G) :=
    let i1 := fresh "i" in let i2 := fresh "i" in
    apply gbind_some in H as (i1 & a & c1 & i2 & H & G & ->).
  Ltac gfresh H := apply dfresh_spec in H as (-> & -> & ? & ?).
  Ltac gtell H := apply tell_spec in H as (-> & ->).
  Ltac grt H := apply gret_spec in H as (-> & -> & ->).

  Inductive lenv := LvFix (v : val) | LvRest | LvTerm (v : val).
  (** The loop instruction, for the three kinds of arrays. *)
  Lemma sim_loop el src out item isr lo hi m en st l (lc : lenv) stop term
      (f : list Z -> res ioerr (val * list Z)) :
    (out < lo)%nat -> (lo <= hi)%nat ->
    inv out m (ds_regs st) en ->
    avail (key src) (ds_strs st) = Some l ->
    (forall st l, inv lo m (ds_regs st) en -> avail (key src) (ds_strs st) = Some l ->
      sim isr (key src) lo hi st l (el l) (reads item)) ->
    match lc with
    | LvFix nv => dreg stop st = Ok nv
    | LvTerm tv => dreg term st = Ok tv
    | LvRest => True
    end ->
    f l = match lc with
          | LvFix nv => let! n := len_of nv in let! (vs, l) := sd_times el n l in Ok (VArr vs, l)
          | LvTerm tv => let! tb := u8s_of tv in
                             let! (vs, l) := sd_until (w_fill w) tb el (S (List.length l)) l in Ok (VArr vs, l)
          | LvRest => let! vs := sd_all el (S (List.length l)) l in Ok (VArr vs, [])
          end ->
    sim [DLoop src (match lc with LvFix _ => Some stop | _ => None end)
                   (match lc with LvTerm _ => Some term | _ => None end) out (isr ++ [DLoopOut out item])]
        (key src) out hi st l (f l) (reads out).
  Proof.
    intros L1 L2 HI Ha Hel Hlc Hf. unfold sim. rewrite !dseq_one. rewrite Hf. clear Hf f.
    assert (Hrg : forall acc rg, inv lo m ((out, VArr []) :: rg) en -> inv lo m ((out, VArr acc) :: rg) en).
    { intros acc rg (A & B & C). split; [|split; [exact B|]].
      - inversion A; subst. constructor; assumption.
      - intros n. rewrite C. destruct (lookup n m) as [r|] eqn:E; [|reflexivity]. cbn [assoc].
        destruct (Nat.eqb_spec r out) as [->|]; [|reflexivity].
        (* out is not a field's register *) exfalso.
        destruct HI as (_ & B' & _). apply lookup_some_in in E. rewrite Forall_forall in B'. apply B' in E. cbn in E. lia. }
    assert (HI1 : inv lo m ((out, VArr []) :: ds_regs st) en) by (apply inv_cons; assumption).
    fold (Decode.dseq w inputs rec).
    assert (Hdone : forall acc ss, keys_in out hi [(out, VArr acc)] /\ @skeys_in stream out hi []
              /\ reads out (VArr acc) [(out, VArr acc)] None
              /\ lst out acc (ds_regs st) ss = {| ds_regs := [(out, VArr acc)] ++ ds_regs st; ds_strs := ss |}).
    { intros acc ss. split; [constructor; [cbn; lia|constructor]|]. split; [constructor|]. split; [|reflexivity].
      split; [reflexivity|]. cbn. rewrite Nat.eqb_refl. reflexivity. }
    assert (HD : davail src st = Ok l) by (unfold davail; rewrite Ha; reflexivity).
    destruct lc as [nv| |tv].
    - cbn [Decode.drun]. rewrite Hlc. cbn [bind].
      destruct (len_of nv) as [n| | |]; cbn [bind]; try reflexivity.
      pose proof (for_ok el src out item isr lo hi m en L1 Hel Hrg n [] (ds_regs st) (ds_strs st) l HI1 Ha) as H.
      change (for_loop n _ (dlet out (VArr []) st)) with (for_loop n (iter out item isr) (lst out [] (ds_regs st) (ds_strs st))).
      destruct (sd_times el n l) as [[vs rest]| | |]; cbn [bind]; try exact H.
      destruct H as (j & Lj & -> & E). exists j, [(out, VArr vs)], [], None.
      destruct (Hdone vs (consume (key src) j (ds_strs st))) as (D1 & D2 & D3 & D4).
      repeat split; try assumption; try (apply D3).
    - cbn [Decode.drun]. rewrite !HD. cbn [bind].
      set (st1 := dskip src (List.length l) (dlet out (VArr []) st)).
      set (ss1 := (key src, SOwn l) :: consume (key src) (List.length l) (ds_strs st)).
      assert (Ha1 : avail (key src) ss1 = Some l) by (subst ss1; cbn; rewrite key_eqb_refl; reflexivity).
      pose proof (while_ok el src out item isr lo hi m en L1 Hel Hrg (S (List.length l)) [] (ds_regs st) ss1 l HI1 Ha1) as H.
      change (while_loop (S (List.length l)) src _ (dpush (key src) (SOwn l) st1))
        with (while_loop (S (List.length l)) src (iter out item isr) (lst out [] (ds_regs st) ss1)).
      destruct (sd_all el (S (List.length l)) l) as [vs| | |]; cbn [bind]; try (rewrite H; reflexivity).
      rewrite H. cbn [bind lst ds_regs ds_strs].
      exists (List.length l), [(out, VArr vs)], [], None.
      destruct (Hdone vs (consume (key src) (List.length l) (ds_strs st))) as (D1 & D2 & D3 & D4).
      repeat split; try assumption; try (apply D3); try lia.
      + rewrite skipn_all. reflexivity.
      + subst ss1 st1. cbn [consume dskip dlet ds_strs]. rewrite key_eqb_refl.
        match goal with |- context [truncate _ (?x :: ?y)] => change (x :: y) with ([x] ++ y) end.
        rewrite truncate_app by reflexivity. reflexivity.
    - cbn [Decode.drun]. rewrite Hlc. cbn [bind].
      destruct (u8s_of tv) as [tb| | |]; cbn [bind]; try reflexivity.
      rewrite !HD. cbn [bind].
      pose proof (term_ok el src out item isr lo hi m en L1 Hel Hrg (w_fill w) tb (S (List.length l)) [] (ds_regs st) (ds_strs st) l HI1 Ha) as H.
      change (term_loop (w_fill w) (S (List.length l)) src tb _ (dlet out (VArr []) st))
        with (term_loop (w_fill w) (S (List.length l)) src tb (iter out item isr) (lst out [] (ds_regs st) (ds_strs st))).
      destruct (sd_until (w_fill w) tb el (S (List.length l)) l) as [[vs rest]| | |]; cbn [bind]; try exact H.
      destruct H as (j & Lj & -> & E). exists j, [(out, VArr vs)], [], None.
      destruct (Hdone vs (consume (key src) j (ds_strs st))) as (D1 & D2 & D3 & D4).
      repeat split; try assumption; try (apply D3).
  Qed.

  Lemma dec_array_ok el lc recg f :
    tspec (fun src => recg src) f ->
    tspec (fun src => dec_array p rf (recg src) el lc src) (fun en l => sd_arr w p rf inputs (f en) en el lc l).
  Proof.
    intros Hrecg src c is r c' H. unfold dec_array in H.
    destruct lc as [e| |e].
    - (* fixed length *)
      gi H as t1 c1 G. grt H. gi G as t2 c2 H. gi G as t3 c3 G1.
      apply deval_spec in G as (-> & -> & E1 & E2).
      grt G1. gi H as t4 c4 G.
      apply dfresh_spec in H as (-> & -> & E3 & E4). cbn [app] in *.
      unfold sd_arr.
      destruct (kind_of (resolved p rf el)) as [pr|d|].
      + gi G as t5 c5 H. gtell G. grt H. cbn [app].
        rewrite E3, E4, E1, E2. split; [lia|]. split; [reflexivity|]. intros st en l HI Ha.
        apply (sim_eval e _ _ _ en _ (key src) st l _ (reads (S (dc_rc c)))); [assumption|lia| |intros; apply reads_app; assumption].
        intros nv. destruct pr; [unfold sim; rewrite dseq_one; reflexivity|..];
        (match goal with |- sim _ _ _ _ ?st' _ _ _ =>
          apply (sim_take (fun l => let! n := arr_size (w_chk w) _ nv in read_prims _ n l) _ src _ _ st' l);
          [|exact Ha|apply pre_suffix; intros; apply read_prims_suffix|lia] end);
        rewrite (dtake_pre src _ _ _ l) by exact Ha; cbn [Decode.drun]; unfold dreg; cbn [ds_regs assoc];
          rewrite Nat.eqb_refl; cbn [of_some bind]; rewrite bind_assoc; reflexivity.
      + gi G as t5 c5 H. gtell G. grt H. cbn [app].
        rewrite E3, E4, E1, E2. split; [lia|]. split; [reflexivity|]. intros st en l HI Ha.
        apply (sim_eval e _ _ _ en _ (key src) st l _ (reads (S (dc_rc c)))); [assumption|lia| |intros; apply reads_app; assumption].
        intros nv.
        match goal with |- sim _ _ _ _ ?st' _ _ _ =>
          apply (sim_take (fun l => let! n := arr_size (w_chk w) _ nv in read_reprs d n l) _ src _ _ st' l);
          [|exact Ha|apply pre_suffix; intros; apply read_reprs_suffix|lia] end.
        rewrite (dtake_pre src _ _ _ l) by exact Ha; cbn [Decode.drun]; unfold dreg; cbn [ds_regs assoc];
          rewrite Nat.eqb_refl; cbn [of_some bind]; rewrite bind_assoc; reflexivity.
      + gi G as t5 c5 H. apply block_some in G as (ib & u & G & -> & ->).
        gi G as item c6 G1. gtell G1.
        gi H as t6 c7 G1. gtell H. grt G1. cbn [app].
        apply Hrecg in G as (B1 & B2 & B3). rewrite E3, E4, E1, E2 in *.
        split; [lia|]. split; [assumption|]. intros st en l HI Ha.
        apply (sim_eval e _ _ _ en _ (key src) st l _ (reads (S (dc_rc c)))); [assumption|lia| |intros; apply reads_app; assumption].
        intros nv.
        apply (sim_loop (f en) src (S (dc_rc c)) item _ (S (S (dc_rc c))) (dc_rc c6) (dc_map c) en _ l (LvFix nv) (dc_rc c) 0
          (fun l => let! n := len_of nv in let! (vs, l) := sd_times (f en) n l in Ok (VArr vs, l))).
        * lia.
        * lia.
        * cbn [ds_regs]. apply inv_cons; [assumption|lia].
        * exact Ha.
        * intros st' l' HI' Ha'. apply B3; assumption.
        * unfold dreg. cbn [ds_regs assoc]. rewrite Nat.eqb_refl. reflexivity.
        * reflexivity.
    - (* rest of stream *)
      gi H as t1 c1 G. grt H. gi G as t2 c2 H. grt G. gi H as t3 c3 G.
      apply dfresh_spec in H as (-> & -> & E3 & E4). cbn [app] in *.
      unfold sd_arr.
      destruct (kind_of (resolved p rf el)) as [pr|d|].
      + gi G as t5 c5 H. gtell G. grt H. cbn [app].
        rewrite E3, E4. split; [lia|]. split; [reflexivity|]. intros st en l HI Ha.
        destruct pr; [unfold sim; rewrite dseq_one; reflexivity|..].
        all: match goal with |- sim _ _ _ _ _ _ (Ok (VArr (map (prim_of ?q) _), [])) _ =>
          apply (sim_take (fun l => let! a := Ok (VArr (map (prim_of q) (sd_chunks (prim_size q) l))) in Ok (a, [])) _ src _ _ st l);
          [reflexivity|exact Ha|apply all_suffix|lia] end.
      + gi G as t5 c5 H. gtell G. grt H. cbn [app].
        rewrite E3, E4. split; [lia|]. split; [reflexivity|]. intros st en l HI Ha.
        apply (sim_take (fun l => let! vs := mapM (repr_of d) (sd_chunks (size (es_scalar (repr_rep d))) l) in Ok (VArr vs, [])) _ src _ _ st l);
          [reflexivity|exact Ha| |lia].
        intros l0 x rest Hx. apply (all_suffix (fun l => let! vs := mapM (repr_of d) (sd_chunks (size (es_scalar (repr_rep d))) l) in Ok (VArr vs)) l0 x rest).
        rewrite bind_assoc. exact Hx.
      + gi G as t5 c5 H. apply block_some in G as (ib & u & G & -> & ->).
        gi G as item c6 G1. gtell G1.
        gi H as t6 c7 G1. gtell H. grt G1. cbn [app].
        apply Hrecg in G as (B1 & B2 & B3). rewrite E3, E4 in *.
        split; [lia|]. split; [assumption|]. intros st en l HI Ha.
        apply (sim_loop (f en) src (dc_rc c) item _ (S (dc_rc c)) (dc_rc c6) (dc_map c) en _ l LvRest 0 0
          (fun l => let! vs := sd_all (f en) (S (List.length l)) l in Ok (VArr vs, []))); try lia; try assumption; try trivial.
        intros st' l' HI' Ha'. apply B3; assumption.
    - (* terminator *)
      gi H as t1 c1 G. gi H as t2 c2 G1. apply deval_spec in H as (-> & -> & E1 & E2). grt G1.
      gi G as t3 c3 H. grt G. gi H as t4 c4 G.
      apply dfresh_spec in H as (-> & -> & E3 & E4). cbn [app] in *.
      gi G as t5 c5 H. apply block_some in G as (ib & u & G & -> & ->).
      gi G as item c6 G1. gtell G1.
      gi H as t6 c7 G1. gtell H. grt G1. cbn [app].
      apply Hrecg in G as (B1 & B2 & B3). rewrite E3, E4, E1, E2 in *.
      split; [lia|]. split; [assumption|]. intros st en l HI Ha. unfold sd_arr.
      apply (sim_eval e _ _ _ en _ (key src) st l _ (reads (S (dc_rc c)))); [assumption|lia| |intros; apply reads_app; assumption].
      intros tv.
      apply (sim_loop (f en) src (S (dc_rc c)) item _ (S (S (dc_rc c))) (dc_rc c6) (dc_map c) en _ l (LvTerm tv) 0 (dc_rc c)
        (fun l => let! tb := u8s_of tv in let! (vs, l) := sd_until (w_fill w) tb (f en) (S (List.length l)) l in Ok (VArr vs, l))).
      * lia.
      * lia.
      * cbn [ds_regs]. apply inv_cons; [assumption|lia].
      * exact Ha.
      * intros st' l' HI' Ha'. apply B3; assumption.
      * unfold dreg. cbn [ds_regs assoc]. rewrite Nat.eqb_refl. reflexivity.
      * reflexivity.
  Qed.

  (** mapM over registers only depends on the registers. *)
  Lemma mapM_dreg rs st : mapM (fun a => dreg a st) rs = mapM (fun r => of_some (assoc r (ds_regs st))) rs.
  Proof. reflexivity. Qed.

  (** A reference or foreign value with arguments. *)
  Lemma sim_args es c is rs c' (mk : list nat -> dinstr) (f : list val -> list Z -> res ioerr (val * list Z)) src out st en l :
    devals es c = Some (is, rs, c') -> (out < dc_rc c)%nat ->
    inv (dc_rc c) (dc_map c) (ds_regs st) en -> avail (key src) (ds_strs st) = Some l ->
    (forall vs, suffixing (f vs)) ->
    (forall rs st, drun (mk rs) st = let! vs := mapM (fun a => dreg a st) rs in
       let! (v, st) := dtake src (f vs) st in Ok (DNext (dlet out v st))) ->
    sim (is ++ [mk rs]) (key src) out (dc_rc c') st l (let! vs := mapM (ev en) es in f vs l) (reads out).
  Proof.
    intros H Lo HI Ha Hs Hi. apply devals_spec in H as (L & M & R). specialize (R st en HI).
    unfold sim. rewrite !dseq_app.
    destruct (mapM (ev en) es) as [vs| | |]; cbn [bind]; try (rewrite R; reflexivity).
    destruct R as (new & K & R1 & R2). rewrite R1. cbn [bind]. rewrite !dseq_one, !Hi, !mapM_dreg. cbn [ds_regs]. rewrite R2. cbn [bind].
    pose proof (dtake_run src (f vs) {| ds_regs := new ++ ds_regs st; ds_strs := ds_strs st |} l Ha (Hs vs)) as D.
    destruct (f vs l) as [[v rest]| | |]; try (rewrite D; reflexivity).
    destruct D as (j & Lj & -> & D). exists j, ((out, v) :: new), [], None. rewrite D. cbn [bind].
    split; [assumption|]. split; [reflexivity|]. split; [|split; [constructor|split; [reflexivity|]]].
    - constructor; [cbn; lia|]. eapply keys_in_weaken; [exact K| |]; lia.
    - split; [reflexivity|]. cbn. rewrite Nat.eqb_refl. reflexivity.
  Qed.

  Lemma dec_type_ok t : tspec (dec_type p rf t) (fun en l => sd_type w p rf inputs srec en t l).
  Proof.
    induction t as [e| | | |d|d|n|n args|el lc IH|len tg items _] using ty_ind'; intros src c is r c' H.
    all: cbn [dec_type] in H; gi H as t1 c1 G; apply dfresh_spec in H as (-> & -> & E1 & E2).
    1-7: gi G as t2 c2 H; gtell G; grt H; cbn [app]; rewrite E1, E2;
      (split; [lia|]); (split; [reflexivity|]); intros st en l HI Ha; cbn [sd_type].
    1-4: apply (sim_take (sd_prim _) _ src); [reflexivity|assumption| |lia];
      intros l0 x rest Hx; unfold sd_prim in Hx; apply bind_ok in Hx as ([a0 r0] & E & Hx); injection Hx as <- <-;
      eapply read_exact_suffix; exact E.
    1-2: apply (sim_take (sd_repr _) _ src); [reflexivity|assumption| |lia];
      apply (suffixing_bind (read_exact _) (repr_of _)); apply read_exact_suffix.
    - apply (sim_take (w_fdec w n []) _ src); [reflexivity|assumption|apply Hfsuf|lia].
    - gi G as a c2 G0. cbn [sd_type]. rename i1 into i2. rename i into i1.
      assert (X : exists mk f, i2 = [mk a] /\ r = dc_rc c /\ c' = c2
          /\ (forall rs st, drun (mk rs) st = let! vs := mapM (fun a => dreg a st) rs in
                let! (v, st) := dtake src (f vs) st in Ok (DNext (dlet (dc_rc c) v st)))
          /\ (forall vs, suffixing (f vs))
          /\ (forall vs l, match p n with
               | Some {| d_ty := TForeign f |} => w_fdec w f vs l
               | _ => srec n vs l
               end = f vs l)).
      { assert (Y : exists mk f, (do _ <- tell (mk a); gret (dc_rc c)) c2 = Some (i2, r, c')
          /\ (forall rs st, drun (mk rs) st = let! vs := mapM (fun a => dreg a st) rs in
                let! (v, st) := dtake src (f vs) st in Ok (DNext (dlet (dc_rc c) v st)))
          /\ (forall vs, suffixing (f vs))
          /\ (forall vs l, match p n with
               | Some {| d_ty := TForeign f |} => w_fdec w f vs l
               | _ => srec n vs l
               end = f vs l)).
        { assert (Z0 : (do _ <- tell (DRef src (dc_rc c) n a); gret (dc_rc c)) c2 = Some (i2, r, c') ->
            (forall vs l, match p n with
               | Some {| d_ty := TForeign f |} => w_fdec w f vs l
               | _ => srec n vs l
               end = srec n vs l) ->
            exists mk f, (do _ <- tell (mk a); gret (dc_rc c)) c2 = Some (i2, r, c')
          /\ (forall rs st, drun (mk rs) st = let! vs := mapM (fun a => dreg a st) rs in
                let! (v, st) := dtake src (f vs) st in Ok (DNext (dlet (dc_rc c) v st)))
          /\ (forall vs, suffixing (f vs))
          /\ (forall vs l, match p n with
               | Some {| d_ty := TForeign f |} => w_fdec w f vs l
               | _ => srec n vs l
               end = f vs l)).
          { intros X1 X2. exists (fun rs => DRef src (dc_rc c) n rs), (srec n). split; [exact X1|]. split; [|split; [apply Hsuf|exact X2]].
            intros rs st. cbn [Decode.drun]. apply bind_ext. intros vs. unfold dtake.
            rewrite !bind_assoc. apply bind_ext. intros l0. rewrite Hrec. reflexivity. }
          destruct (p n) as [[da dt dp]|]; [destruct dt|]; try (apply Z0; [exact G0|reflexivity]).
          exists (fun rs => DForeign src (dc_rc c) n0 rs), (w_fdec w n0).
          split; [exact G0|]. split; [reflexivity|]. split; [apply Hfsuf|reflexivity]. }
        destruct Y as (mk & f & Y1 & Y2). exists mk, f.
        apply gbind_some in Y1 as (j1 & u & d1 & j2 & Y1 & Y3 & ->).
        apply tell_spec in Y1 as (-> & ->). apply gret_spec in Y3 as (-> & -> & ->). auto. }
      destruct X as (mk & f & -> & -> & -> & X1 & X2 & X3).
      pose proof (devals_spec _ _ _ _ _ G) as (L & M & _). rewrite E1, E2 in *.
      split; [lia|]. split; [assumption|]. intros st en l HI Ha. cbn [app].
      erewrite (bind_ext (mapM (ev en) args)) by (intros; apply X3).
      assert (HI' : inv (dc_rc c1) (dc_map c1) (ds_regs st) en) by (rewrite E1, E2; eapply inv_mono; [exact HI|lia]).
      apply (sim_args args c1 i1 a c2 mk f src (dc_rc c) st en l); auto. lia.
    - cbn [app].
      apply (dec_array_ok el lc (dec_type p rf el) (fun en l => sd_type w p rf inputs srec en el l) IH) in G as (B1 & B2 & B3).
      rewrite E1, E2 in *. split; [lia|]. split; [assumption|]. intros st en l HI Ha.
      eapply sim_weaken; [apply B3|..]; auto. eapply inv_mono; [exact HI|lia].
    - discriminate.
  Qed.

  Lemma dleave_app st new g ss : List.length ss = List.length (ds_strs st) ->
    dleave st {| ds_regs := new ++ ds_regs st; ds_strs := g ++ ss |} = {| ds_regs := ds_regs st; ds_strs := ss |}.
  Proof. intros H. unfold dleave. cbn [ds_regs ds_strs]. rewrite !truncate_app by auto. reflexivity. Qed.

  (** *** Transforms *)
  Definition extends (lo hi : nat) (st st' : dst) : Prop :=
    exists new, ds_regs st' = new ++ ds_regs st /\ keys_in lo hi new.
  Lemma extends_inv lo hi m st st' en : inv lo m (ds_regs st) en -> (lo <= hi)%nat -> extends lo hi st st' -> inv hi m (ds_regs st') en.
  Proof. intros H L (new & E & K). rewrite E. eapply inv_ext; eassumption. Qed.
  Lemma extends_trans lo mid hi st st' st'' : (lo <= mid)%nat -> (mid <= hi)%nat ->
    extends lo mid st st' -> extends mid hi st' st'' -> extends lo hi st st''.
  Proof.
    intros L1 L2 (n1 & E1 & K1) (n2 & E2 & K2). exists (n2 ++ n1). rewrite E2, E1, app_assoc.
    split; [reflexivity|]. apply keys_in_app; eapply keys_in_weaken; eauto.
  Qed.

  (** Code reading from a stream made of what was taken from [src]. *)
  Lemma sim_inner {A} code src r mid hi st0 st1 lo (l l1 : list Z) plain j (x : res ioerr (A * list Z)) new0 (Q Q' : A -> regs -> option val -> Prop) pre :
    dseq pre st0 = Ok (DNext st1) ->
    ds_regs st1 = new0 ++ ds_regs st0 -> keys_in lo mid new0 ->
    ds_strs st1 = (Some r, SOwn plain) :: consume src j (ds_strs st0) ->
    (lo <= r < mid)%nat -> (mid <= hi)%nat -> (j <= List.length l)%nat ->
    sim code (Some r) mid hi st1 l1 x Q ->
    (forall a new ret, keys_in mid hi new -> Q a new ret -> Q' a (new ++ new0) ret) ->
    sim (pre ++ code) src lo hi st0 l (let! (a, _) := x in Ok (a, skipn j l)) Q'.
  Proof.
    intros E ER K ES Lr Lh Lj H HQ. unfold sim in *. rewrite !dseq_app, !E. cbn [bind].
    destruct x as [[a rest]| | |]; cbn [bind]; try exact H.
    destruct H as (j1 & new & g & ret & H1 & H2 & H3 & H4 & H5 & H6).
    exists j, (new ++ new0), (g ++ [(Some r, SOwn (skipn j1 plain))]), ret.
    split; [assumption|]. split; [reflexivity|]. split; [|split; [|split]].
    - apply keys_in_app; eapply keys_in_weaken; eauto; lia.
    - apply skeys_in_app; [eapply skeys_in_weaken; eauto; lia|]. constructor; [|constructor]. exists r. split; [reflexivity|lia].
    - cbn zeta in *. rewrite H5, ER, ES, <- !app_assoc. cbn [consume app]. rewrite key_eqb_refl. reflexivity.
    - apply HQ; assumption.
  Qed.

  Definition stable {A} (Q : A -> regs -> option val -> Prop) : Prop :=
    forall a new new0 ret, Q a new ret -> Q a (new ++ new0) ret.

  Lemma dec_xs_ok xs : forall src c is s c', dec_xs xs src c = Some (is, s, c') -> old_key (dc_rc c) (key src) ->
    (dc_rc c <= dc_rc c')%nat /\ dc_map c' = dc_map c /\ old_key (dc_rc c') (key s) /\
    forall A (sk : list Z -> res ioerr (A * list Z)) code hi (Q : A -> regs -> option val -> Prop) st en l,
      inv (dc_rc c) (dc_map c) (ds_regs st) en -> avail (key src) (ds_strs st) = Some l -> (dc_rc c' <= hi)%nat ->
      (forall st' l', extends (dc_rc c) (dc_rc c') st st' -> avail (key s) (ds_strs st') = Some l' ->
         sim code (key s) (dc_rc c') hi st' l' (sk l') Q) ->
      stable Q ->
      sim (is ++ code) (key src) (dc_rc c) hi st l (sd_xs w inputs en xs sk l) Q.
  Proof.
    induction xs as [|x xs IH]; intros src c is s c' H Hk; cbn [dec_xs] in H.
    { grt H. split; [lia|]. split; [reflexivity|]. split; [assumption|].
      intros A sk code hi Q st en l HI Ha Lh Hc HQ. cbn [app sd_xs].
      eapply sim_weaken; [apply Hc; [|exact Ha]|lia|lia|auto].
      exists []. split; [reflexivity|constructor]. }
    destruct x as [xn xc xa]. cbn [x_cond x_name x_args] in *. destruct xc as [e|].
    - (* conditional *)
      gi H as t1 c1 G. gi H as rc0 c2 G1. apply deval_spec in H as (-> & -> & E1 & E2). grt G1.
      gi G as t2 c3 H. apply block_some in G as (pre & args & G & -> & ->).
      gi H as s0 c4 G1. apply dfresh_spec in H as (-> & -> & E3 & E4).
      gi G1 as t3 c5 H. gtell G1. cbn [app] in *.
      apply devals_spec in G as (L1 & M1 & R1).
      assert (Hk' : old_key (dc_rc c4) (key (TStream (dc_rc c3)))) by (intros r0 E0; cbn in E0; injection E0 as <-; lia).
      apply IH in H as (L2 & M2 & K2 & R2); [|exact Hk'].
      rewrite E1, E2, E3, E4 in *. split; [lia|]. split; [congruence|]. split; [assumption|].
      intros A sk code hi Q st en l HI Ha Lh Hc HQ. cbn [app sd_xs x_cond x_name x_args].
      rewrite bind_assoc.
      eapply (sim_eval e _ _ _ en _ (key src) st l _ Q); [assumption|lia| |intros; apply HQ; assumption].
      intros v. set (st0 := {| ds_regs := (dc_rc c, v) :: ds_regs st; ds_strs := ds_strs st |}).
      assert (HI0 : inv (S (dc_rc c)) (dc_map c) (ds_regs st0) en) by (apply inv_cons; [assumption|lia]).
      specialize (R1 st0 en HI0).
      match goal with |- sim (?ins :: ?rest) _ _ _ _ _ _ _ => set (ci := ins); change (ci :: rest) with ([ci] ++ rest) end.
      assert (Hrun : drun ci st0 = let! b := bool_of v in
        if b then
          let! o := dseq pre st0 in
          match o with
          | DRet v st => Ok (DRet v st)
          | DNext st' =>
              let! vs := mapM (fun a => dreg a st') args in
              let! (plain, st'') := dtake src (w_xdec w xn vs) (dleave st0 st') in
              Ok (DNext (dpush (Some (dc_rc c3)) (SOwn plain) st''))
          end
        else Ok (DNext (dpush (Some (dc_rc c3)) (SAlias (key src)) st0))).
      { subst ci. cbn [Decode.drun]. unfold dreg at 1. cbn [ds_regs st0 assoc]. rewrite Nat.eqb_refl. cbn [of_some bind].
        apply bind_ext. intros b. unfold davail. cbn [ds_strs st0]. rewrite Ha. reflexivity. }
      destruct (bool_of v) as [b| | |]; cbn [bind] in *.
      2-4: unfold sim; rewrite dseq_app, dseq_one, Hrun; reflexivity.
      destruct b.
      + destruct (mapM (ev en) xa) as [vs| | |]; cbn [bind].
        2-4: unfold sim; rewrite dseq_app, dseq_one, Hrun, R1; reflexivity.
        destruct R1 as (new & K & R1 & R1').
        rewrite R1 in Hrun. cbn [bind] in Hrun. rewrite mapM_dreg in Hrun. cbn [ds_regs] in Hrun.
        rewrite R1' in Hrun. cbn [bind] in Hrun.
        pose proof (dleave_app st0 new [] (ds_strs st0) eq_refl) as HL. cbn [app] in HL. rewrite HL in Hrun. clear HL.
        pose proof (dtake_run src (w_xdec w xn vs) st0 l Ha (Hxsuf xn vs)) as D.
        replace {| ds_regs := ds_regs st0; ds_strs := ds_strs st0 |} with st0 in Hrun by reflexivity.
        destruct (w_xdec w xn vs l) as [[plain rest]| | |]; cbn [bind].
        2-4: unfold sim; rewrite dseq_app, dseq_one, Hrun, D; reflexivity.
        destruct D as (j & Lj & -> & D).
        eapply (sim_inner _ (key src) (dc_rc c3) (S (dc_rc c3)) hi st0 _ (S (dc_rc c)) l plain plain j _ []).
        * rewrite dseq_one, Hrun, D. reflexivity.
        * reflexivity.
        * constructor.
        * reflexivity.
        * lia.
        * lia.
        * assumption.
        * eapply R2; [|cbn; rewrite Nat.eqb_refl; reflexivity|assumption| |exact HQ].
          -- rewrite <- M1 in *. eapply inv_mono; [exact HI0|lia].
          -- intros st' l' Hx Ha'. apply Hc; [|assumption].
             eapply (extends_trans _ (S (dc_rc c)) _ _ st0); [lia| | |].
             ++ lia.
             ++ exists [(dc_rc c, v)]. split; [reflexivity|]. constructor; [cbn; lia|constructor].
             ++ eapply (extends_trans _ (S (dc_rc c3)) _ _ st0); [lia|lia| |exact Hx].
                exists []. split; [reflexivity|constructor].
        * intros. apply HQ. assumption.
      + unfold sim in *.
        set (st1 := dpush (Some (dc_rc c3)) (SAlias (key src)) st0) in *.
        assert (HH : sim (i1 ++ code) (Some (dc_rc c3)) (S (dc_rc c3)) hi st1 l (sd_xs w inputs en xs sk l) Q).
        { eapply R2; [|cbn; rewrite Nat.eqb_refl; exact Ha|assumption| |exact HQ].
          - rewrite <- M1 in *. eapply inv_mono; [exact HI0|lia].
          - intros st' l' Hx Ha'. apply Hc; [|assumption].
            eapply (extends_trans _ (S (dc_rc c)) _ _ st0); [lia| | |].
            + lia.
            + exists [(dc_rc c, v)]. split; [reflexivity|]. constructor; [cbn; lia|constructor].
            + eapply (extends_trans _ (S (dc_rc c3)) _ _ st0); [lia|lia| |exact Hx].
              exists []. split; [reflexivity|constructor]. }
        unfold sim in HH. rewrite !(dseq_app [ci]), !dseq_one, !Hrun. cbn [bind].
        destruct (sd_xs w inputs en xs sk l) as [[a rest]| | |]; try exact HH.
        destruct HH as (j & new & g & ret & H1 & H2 & H3 & H4 & H5 & H6).
        exists j, new, (g ++ [(Some (dc_rc c3), SAlias (key src))]), ret.
        split; [assumption|]. split; [assumption|]. split; [eapply keys_in_weaken; eauto; lia|].
        split; [|split; [|assumption]].
        * apply skeys_in_app; [eapply skeys_in_weaken; eauto; lia|]. constructor; [|constructor].
          exists (dc_rc c3). split; [reflexivity|lia].
        * cbn zeta in *. rewrite H5. cbn [st1 dpush ds_strs ds_regs consume]. rewrite key_eqb_refl.
          rewrite <- app_assoc. reflexivity.
    - (* unconditional *)
      gi H as t1 c1 G. grt H. gi G as args c2 H. gi H as s0 c3 G1.
      apply dfresh_spec in H as (-> & -> & E3 & E4).
      gi G1 as t3 c5 H. gtell G1. cbn [app] in *.
      apply devals_spec in G as (L1 & M1 & R1).
      assert (Hk' : old_key (dc_rc c3) (key (TStream (dc_rc c2)))) by (intros r0 E0; cbn in E0; injection E0 as <-; lia).
      apply IH in H as (L2 & M2 & K2 & R2); [|exact Hk'].
      rewrite E3, E4 in *. split; [lia|]. split; [congruence|]. split; [assumption|].
      intros A sk code hi Q st en l HI Ha Lh Hc HQ. cbn [app sd_xs x_cond x_name x_args bind].
      specialize (R1 st en HI). rewrite <- !app_assoc.
      destruct (mapM (ev en) xa) as [vs| | |]; cbn [bind].
      2-4: unfold sim; rewrite dseq_app, R1; reflexivity.
      destruct R1 as (new & K & R1 & R1').
      set (st1 := {| ds_regs := new ++ ds_regs st; ds_strs := ds_strs st |}) in *.
      pose proof (dtake_run src (w_xdec w xn vs) st1 l Ha (Hxsuf xn vs)) as D.
      assert (Hrun : drun (DWrap src (dc_rc c2) xn args) st1 =
        let! (plain, st) := dtake src (w_xdec w xn vs) st1 in Ok (DNext (dpush (Some (dc_rc c2)) (SOwn plain) st))).
      { cbn [Decode.drun]. rewrite mapM_dreg. cbn [st1 ds_regs]. rewrite R1'. reflexivity. }
      destruct (w_xdec w xn vs l) as [[plain rest]| | |]; cbn [bind].
      2-4: unfold sim; rewrite dseq_app, R1; cbn [bind app Decode.dseq]; rewrite Hrun, D; reflexivity.
      destruct D as (j & Lj & -> & D).
      match goal with |- sim (?pr ++ (?ins :: ?rest) ++ code) _ _ _ _ _ _ _ =>
        replace (pr ++ (ins :: rest) ++ code) with ((pr ++ [ins]) ++ rest ++ code) by (rewrite <- app_assoc; reflexivity) end.
      eapply (sim_inner _ (key src) (dc_rc c2) (S (dc_rc c2)) hi st _ (dc_rc c) l plain plain j _ new).
      + rewrite dseq_app, R1. cbn [bind]. rewrite dseq_one, Hrun, D. reflexivity.
      + reflexivity.
      + eapply keys_in_weaken; [exact K| |]; lia.
      + reflexivity.
      + lia.
      + lia.
      + assumption.
      + eapply R2; [|cbn; rewrite Nat.eqb_refl; reflexivity|assumption| |exact HQ].
        * cbn [dpush dskip ds_regs st1]. rewrite <- M1 in *. eapply inv_ext; [eassumption| |lia]. eapply keys_in_weaken; [exact K| |]; lia.
        * intros st' l' Hx Ha'. apply Hc; [|assumption].
          eapply (extends_trans _ (S (dc_rc c2))); [lia|lia| |exact Hx].
          exists new. split; [reflexivity|]. eapply keys_in_weaken; [exact K| |]; lia.
      + intros. apply HQ. assumption.
  Qed.

  (** *** Composition *)
  Lemma sim_map {A B} (h : A -> B) code s lo hi st l (r : res ioerr (A * list Z)) (Q : A -> regs -> option val -> Prop) (Q' : B -> regs -> option val -> Prop) :
    sim code s lo hi st l r Q -> (forall a new ret, Q a new ret -> Q' (h a) new ret) ->
    sim code s lo hi st l (let! (a, l) := r in Ok (h a, l)) Q'.
  Proof.
    unfold sim. destruct r as [[a rest]| | |]; cbn [bind]; auto.
    intros (j & new & g & ret & H1 & H2 & H3 & H4 & H5 & H6) HQ. exists j, new, g, ret. auto 10.
  Qed.

  Lemma sim_seq {A B} code1 code2 s lo mid hi st l (r1 : res ioerr (A * list Z)) (f : A -> list Z -> res ioerr (B * list Z))
      (Q1 : A -> regs -> option val -> Prop) (Q2 : B -> regs -> option val -> Prop) :
    old_key lo s -> (lo <= mid)%nat -> (mid <= hi)%nat -> avail s (ds_strs st) = Some l ->
    sim code1 s lo mid st l r1 Q1 ->
    (forall a new ret, Q1 a new ret -> ret = None) ->
    (forall a new st' l', Q1 a new None -> keys_in lo mid new -> ds_regs st' = new ++ ds_regs st -> avail s (ds_strs st') = Some l' ->
       sim code2 s mid hi st' l' (f a l') (fun b new2 ret => keys_in mid hi new2 -> Q2 b (new2 ++ new) ret)) ->
    sim (code1 ++ code2) s lo hi st l (let! (a, l) := r1 in f a l) Q2.
  Proof.
    intros Hk L1 L2 Ha H1 HN H2. unfold sim in H1 |- *. rewrite !dseq_app.
    destruct r1 as [[a rest]| | |]; cbn [bind]; try (rewrite H1; reflexivity).
    destruct H1 as (j & new & g & ret & A1 & A2 & A3 & A4 & A5 & A6).
    pose proof (HN _ _ _ A6) as ->. cbn zeta in A5. rewrite A5. cbn [bind]. subst rest.
    set (st' := {| ds_regs := new ++ ds_regs st; ds_strs := g ++ consume s j (ds_strs st) |}).
    assert (Ha' : avail s (ds_strs st') = Some (skipn j l)).
    { cbn [st' ds_strs]. rewrite (avail_app lo mid) by assumption. apply avail_consume. assumption. }
    specialize (H2 a new st' (skipn j l) A6 A3 eq_refl Ha'). unfold sim in H2.
    destruct (f a (skipn j l)) as [[b rest]| | |]; try exact H2.
    destruct H2 as (j2 & new2 & g2 & ret & B1 & B2 & B3 & B4 & B5 & B6).
    exists (j + j2)%nat, (new2 ++ new), (g2 ++ g), ret. rewrite skipn_length in B1.
    split; [lia|]. split; [rewrite B2, skipn_skipn; reflexivity|].
    split; [apply keys_in_app; eapply keys_in_weaken; eauto|].
    split; [apply skeys_in_app; eapply skeys_in_weaken; eauto|].
    split; [|auto]. cbn zeta in *. rewrite B5. cbn [st' ds_regs ds_strs].
    rewrite (consume_app lo mid) by assumption. rewrite consume_add, <- !app_assoc. reflexivity.
  Qed.

  (** *** Fields *)
  Definition names_of (f : fattr * ty) : list string := leaf_names (flatten_field f).
  Definition carries (names : list string) (em : list nat) : vals -> regs -> option val -> Prop :=
    fun vs new ret => ret = None /\ map fst vs = names /\ Forall2 (fun r nv => assoc r new = Some (snd nv)) em vs.
  Lemma carries_stable names em : stable (carries names em).
  Proof.
    intros vs new new0 ret (-> & E & F). split; [reflexivity|]. split; [assumption|].
    eapply F2_impl; [|exact F]. cbn. intros r nv H. rewrite assoc_app, H. reflexivity.
  Qed.
  Definition kspec (k : target -> dgen (list nat)) (names : list string) (ins : bool)
      (sk : env -> list Z -> res ioerr (vals * list Z)) : Prop :=
    forall src c is em c', k src c = Some (is, em, c') -> old_key (dc_rc c) (key src) ->
      (dc_rc c <= dc_rc c')%nat /\ Forall (fun r => (dc_rc c <= r < dc_rc c')%nat) em /\ List.length em = List.length names
      /\ dc_map c' = (if ins then rev (combine names em) else []) ++ dc_map c
      /\ forall st en l, inv (dc_rc c) (dc_map c) (ds_regs st) en -> avail (key src) (ds_strs st) = Some l ->
           sim is (key src) (dc_rc c) (dc_rc c') st l (sk en l) (carries names em).

  Lemma range_weaken lo hi lo' hi' (em : list nat) : Forall (fun r => (lo <= r < hi)%nat) em -> (lo' <= lo)%nat -> (hi <= hi')%nat ->
    Forall (fun r => (lo' <= r < hi')%nat) em.
  Proof. intros H ? ?. eapply Forall_impl; [|exact H]. cbn. intros. lia. Qed.

  Lemma dec_uncond_ok k a names ins sk : kspec k names ins sk ->
    kspec (dec_uncond k a) names ins (fun en l => sd_xs w inputs en (rev (fa_xs a)) (sk en) l).
  Proof.
    intros Hk src c is em c' H Ho. unfold dec_uncond in H. gi H as s c1 G.
    apply dec_xs_ok in H as (L1 & M1 & K1 & R1); [|assumption].
    destruct (Hk _ _ _ _ _ G K1) as (L2 & F2 & N2 & M2 & R2). rewrite M1 in *.
    split; [lia|]. split; [eapply range_weaken; eauto|]. split; [assumption|]. split; [assumption|].
    intros st en l HI Ha. apply R1; [assumption|assumption|lia| |apply carries_stable].
    intros st' l' Hx Ha'. apply R2; [|assumption]. eapply extends_inv; eauto.
  Qed.

  Lemma dec_field_ok k a t sk : kspec k (names_of (a, t)) (is_cont t) sk ->
    kspec (dec_field k a) (names_of (a, t)) (is_cont t) (fun en l => sd_field w inputs (a, t, sk) en l).
  Proof.
    intros Hk. pose proof (dec_uncond_ok k a _ _ _ Hk) as Hu.
    intros src c is em c' H Ho. unfold dec_field, dec_cond in H. unfold sd_field.
    destruct (fa_cond a) as [e|].
    - gi H as t1 c1 G. gi H as rc0 c2 G1. apply deval_spec in H as (-> & -> & E1 & E2). grt G1. cbn [app] in *.
      destruct (fa_pad a) eqn:Ep.
      + destruct (Hu _ _ _ _ _ G (old_key_le _ (dc_rc c2) _ Ho ltac:(lia))) as (L2 & F2 & N2 & M2 & R2).
        rewrite E1, E2 in *. split; [lia|]. split; [eapply range_weaken; eauto|]. split; [assumption|]. split; [assumption|].
        intros st en l HI Ha.
        apply (sim_eval e _ _ _ en _ (key src) st l (fun _ => _) (carries (names_of (a, t)) em)); [assumption|lia| |].
        * intros v. apply R2; [|exact Ha]. apply inv_cons; [assumption|lia].
        * intros. apply carries_stable. assumption.
      + gi G as t2 c3 H. apply block_some in G as (body & em' & G & -> & ->).
        destruct em' as [|r0 em']; [discriminate|]. gi H as t3 c4 G1. gtell H. grt G1. cbn [app].
        remember (r0 :: em') as em eqn:Hem. clear Hem.
        destruct (Hu _ _ _ _ _ G (old_key_le _ (dc_rc c2) _ Ho ltac:(lia))) as (L2 & F2 & N2 & M2 & R2).
        rewrite E1, E2 in *. split; [lia|]. split; [eapply range_weaken; eauto|]. split; [assumption|]. split; [assumption|].
        intros st en l HI Ha.
        apply (sim_eval e _ _ _ en _ (key src) st l _ (carries (names_of (a, t)) em)); [assumption|lia| |intros; apply carries_stable; assumption].
        intros v. set (st0 := {| ds_regs := (dc_rc c, v) :: ds_regs st; ds_strs := ds_strs st |}).
        assert (HI0 : inv (S (dc_rc c)) (dc_map c) (ds_regs st0) en) by (apply inv_cons; [assumption|lia]).
        specialize (R2 st0 en l HI0 Ha).
        assert (Hrun : drun (DCond em (dc_rc c) body) st0 = let! b := bool_of v in
          if b then
            let! o := dseq body st0 in
            match o with
            | DRet v st => Ok (DRet v st)
            | DNext st' =>
                let! vs := mapM (fun r => let! v := dreg r st' in Ok (r, VOpt (Some v))) em in
                let st'' := dleave st0 st' in
                Ok (DNext {| ds_regs := rev vs ++ ds_regs st''; ds_strs := ds_strs st'' |})
            end
          else Ok (DNext {| ds_regs := rev (map (fun r => (r, VOpt None)) em) ++ ds_regs st0; ds_strs := ds_strs st0 |})).
        { cbn [Decode.drun]. unfold dreg at 1. cbn [ds_regs st0 assoc]. rewrite Nat.eqb_refl. reflexivity. }
        unfold sim. rewrite !dseq_one, !Hrun. clear Hrun.
        destruct (bool_of v) as [b| | |]; cbn [bind]; try reflexivity.
        destruct b.
        * unfold sim in R2. destruct (sd_xs w inputs en (rev (fa_xs a)) (sk en) l) as [[vs rest]| | |]; cbn [bind];
            try (rewrite R2; reflexivity).
          destruct R2 as (j & new & g & ret & A1 & A2 & A3 & A4 & A5 & -> & A6 & A7).
          cbn zeta in A5. rewrite A5. cbn [bind].
          set (fv := fun r => match assoc r new with Some x => VOpt (Some x) | None => VOpt None end).
          assert (Hm : mapM (fun r => let! v := dreg r {| ds_regs := new ++ ds_regs st0; ds_strs := g ++ consume (key src) j (ds_strs st0) |} in Ok (r, VOpt (Some v))) em
            = Ok (map (fun r => (r, fv r)) em)).
          { clear - A7. induction A7 as [|r nv em vs Hx A7 IH]; [reflexivity|]. cbn [mapM map].
            unfold dreg at 1. cbn [ds_regs]. rewrite assoc_app, Hx. cbn [of_some bind].
            rewrite IH. cbn [bind]. unfold fv at 2. rewrite Hx. reflexivity. }
          rewrite Hm. cbn [bind]. rewrite dleave_app by (apply consume_length). cbn [ds_regs ds_strs].
          exists j, (rev (map (fun r => (r, fv r)) em)), [], None.
          split; [assumption|]. split; [assumption|]. split; [apply keys_in_map; eapply range_weaken; eauto|].
          split; [constructor|]. split; [reflexivity|]. split; [reflexivity|].
          split; [unfold wrap_some; rewrite map_map; cbn; assumption|].
          assert (Hall : Forall2 (fun r nv => In r em /\ assoc r new = Some (snd nv)) em vs).
          { clear - A7. assert (forall em0, incl em em0 -> Forall2 (fun r nv => In r em0 /\ assoc r new = Some (snd nv)) em vs).
            { induction A7 as [|r nv em vs Hx A7 IH]; intros em0 Hi; constructor.
              - split; [apply Hi; left; reflexivity|assumption].
              - apply IH. intros y Hy. apply Hi. right. assumption. }
            apply H. apply incl_refl. }
          assert (Hgen : forall em0 vs0, Forall2 (fun r nv => In r em /\ assoc r new = Some (snd nv)) em0 vs0 ->
            Forall2 (fun r nv => assoc r (rev (map (fun r => (r, fv r)) em)) = Some (snd nv)) em0 (wrap_some vs0)).
          { intros em0 vs0 H. induction H as [|r nv em1 vs1 (Hx & Hy) H IH]; cbn; constructor; [|exact IH].
            rewrite assoc_map_rev by assumption. unfold fv. rewrite Hy. reflexivity. }
          apply Hgen. exact Hall.
        * exists O, (rev (map (fun r => (r, VOpt None)) em)), [], None.
          split; [lia|]. split; [reflexivity|]. split; [apply (keys_in_map _ _ (fun _ => VOpt None)); eapply range_weaken; eauto|].
          split; [constructor|]. split; [rewrite consume_0; reflexivity|]. split; [reflexivity|].
          split; [unfold all_none; rewrite map_map, map_id; reflexivity|].
          fold (names_of (a, t)). clear - N2. revert N2. generalize (names_of (a, t)). intros names N2.
          assert (Hall : forall em0 names, List.length em0 = List.length names -> incl em0 em ->
            Forall2 (fun r nv => assoc r (rev (map (fun r => (r, VOpt None)) em)) = Some (snd nv)) em0 (all_none names)).
          { clear. induction em0 as [|r em0 IH]; intros [|n names] E Hi; try discriminate; constructor.
            - rewrite (assoc_map_rev (fun _ => VOpt None)); [reflexivity|]. apply Hi. left. reflexivity.
            - apply IH; [cbn in E; lia|]. intros y Hy. apply Hi. right. assumption. }
          apply Hall; [assumption|apply incl_refl].
    - gi H as t1 c1 G. grt H. cbn [app] in *.
      destruct (fa_pad a); exact (Hu _ _ _ _ _ G Ho).
  Qed.

  (** *** Struct containers *)
  Lemma dinserts_spec n rs : forall c is u c', dinserts n rs c = Some (is, u, c') ->
    is = [] /\ dc_rc c' = dc_rc c /\ dc_map c' = rev (map (fun r => (n, r)) rs) ++ dc_map c.
  Proof.
    induction rs as [|r rs IH]; intros c is u c' H; cbn [dinserts] in H.
    - grt H. auto.
    - gi H as t1 c1 G. cbv in H. injection H as <- <- <-. apply IH in G as (-> & E1 & E2). cbn in *.
      split; [reflexivity|]. split; [assumption|]. rewrite E2, <- app_assoc. reflexivity.
  Qed.

  Definition item_ok (it : ditem) (sit : sditem) : Prop :=
    let '(a, t, k) := it in let '(a', t', sk) := sit in
    a = a' /\ t = t' /\ (is_cont t = false -> names_of (a, t) = [] \/ names_of (a, t) = [fa_name a]) /\
    kspec k (names_of (a, t)) (is_cont t) sk.

  Lemma dec_items_ok its : forall sits, Forall2 item_ok its sits ->
    kspec (dec_items its) (flat_map (fun it => names_of (fst it)) its) true (fun en l => sd_items w inputs sits en l).
  Proof.
    induction its as [|[[a t] k] its IH]; intros sits HF src c is em c' H Ho; inversion HF as [|? [[a' t'] sk] ? sits' Hit HF']; subst.
    - cbn [dec_items] in H. grt H. split; [lia|]. split; [constructor|]. split; [reflexivity|]. split; [reflexivity|].
      intros st en l HI Ha. cbn [sd_items]. exists O, [], [], None.
      split; [lia|]. split; [reflexivity|]. split; [constructor|]. split; [constructor|].
      split; [rewrite consume_0; destruct st; reflexivity|]. split; [reflexivity|]. split; [reflexivity|constructor].
    - destruct Hit as (<- & <- & Hnm & Hk). cbn [dec_items] in H.
      gi H as em1 c1 G. gi G as t1 c2 G1. gi G1 as em2 c3 G2. grt G2. rewrite app_nil_r.
      destruct (dec_field_ok k a t sk Hk _ _ _ _ _ H Ho) as (L1 & F1 & N1 & M1 & R1).
      assert (X : i1 = [] /\ dc_rc c2 = dc_rc c1 /\ dc_map c2 = rev (combine (names_of (a, t)) em1) ++ dc_map c).
      { destruct (is_cont t).
        - grt G. auto.
        - apply dinserts_spec in G as (-> & E1 & E2). split; [reflexivity|]. split; [assumption|].
          rewrite E2, M1. cbn [app]. destruct (Hnm eq_refl) as [En|En]; rewrite En in N1 |- *.
          + destruct em1; [reflexivity|discriminate].
          + destruct em1 as [|r [|r' em1]]; try discriminate. reflexivity. }
      destruct X as (-> & E1 & E2). cbn [app].
      destruct (IH sits' HF' _ _ _ _ _ G1 (old_key_le _ (dc_rc c2) _ Ho ltac:(lia))) as (L2 & F2 & N2 & M2 & R2).
      rewrite E1, E2 in *. cbn [flat_map fst].
      split; [lia|]. split; [apply Forall_app; split; eapply range_weaken; eauto; lia|].
      split; [rewrite !app_length; lia|].
      split; [rewrite M2, combine_app by auto; rewrite rev_app_distr, app_assoc; reflexivity|].
      intros st en l HI Ha. cbn [sd_items].
      apply (sim_seq i i0 (key src) (dc_rc c) (dc_rc c1) (dc_rc c3) st l _
        (fun vs l => let! (vs', l) := sd_items w inputs sits' (rev vs ++ en) l in Ok (vs ++ vs', l))
        (carries (names_of (a, t)) em1)); try lia; try assumption.
      + apply R1; assumption.
      + intros ? ? ? (E & _). exact E.
      + intros vs new st' l' (_ & Q1 & Q2) K ER Ha'.
        eapply (sim_map (fun vs' => vs ++ vs')).
        * apply R2; [|assumption]. rewrite ER. apply (inv_insert (dc_rc c)); auto.
        * intros vs' new2 ret (-> & Q3 & Q4) Kn. split; [reflexivity|]. split; [rewrite map_app; cbn; congruence|].
          apply Forall2_app.
          -- clear - Q2 Kn F1. induction Q2 as [|r nv em1 vs Hx Q2 IHq]; constructor.
             ++ inversion F1; subst. rewrite assoc_app, (assoc_none _ _ r new2 Kn) by lia. exact Hx.
             ++ apply IHq. inversion F1; assumption.
          -- eapply F2_impl; [|exact Q4]. cbn. intros r nv Hx. rewrite assoc_app, Hx. reflexivity.
  Qed.

  (** Reading at most a given number of bytes. *)
  Lemma sim_take_limit {A} code src b lo hi st l n (k : list Z -> res ioerr (A * list Z)) (Q : A -> regs -> option val -> Prop) :
    (lo <= b < hi)%nat -> avail src (ds_strs st) = Some l ->
    sim code (Some b) lo hi (dpush (Some b) (STake src n) st) (firstn n l) (k (firstn n l)) Q ->
    forall pre, dseq pre st = Ok (DNext (dpush (Some b) (STake src n) st)) ->
    sim (pre ++ code) src lo hi st l (let! (a, rest) := k (firstn n l) in Ok (a, rest ++ skipn n l)) Q.
  Proof.
    intros Hb Ha H pre Hp. unfold sim in *. rewrite !dseq_app, !Hp. cbn [bind].
    destruct (k (firstn n l)) as [[a rest]| | |]; cbn [bind]; try exact H.
    destruct H as (j & new & g & ret & A1 & A2 & A3 & A4 & A5 & A6).
    exists j, new, (g ++ [(Some b, STake src (n - j))]), ret.
    split; [rewrite firstn_length in A1; lia|]. split; [rewrite A2; apply skipn_limit; assumption|].
    split; [assumption|]. split; [|split; [|assumption]].
    - apply skeys_in_app; [assumption|]. constructor; [|constructor]. exists b. auto.
    - cbn zeta in *. rewrite A5. cbn [dpush ds_strs ds_regs consume]. rewrite key_eqb_refl, <- app_assoc. reflexivity.
  Qed.

  Definition dlimit (len : option expr) (src : target) : dgen target :=
    match len with
    | Some e => do l <- deval e; do b <- dfresh; do _ <- tell (DConstrict src b l); gret (TStream b)
    | None => gret src
    end.
  Lemma dlimit_ok len : forall src c is buf c', dlimit len src c = Some (is, buf, c') -> old_key (dc_rc c) (key src) ->
    (dc_rc c <= dc_rc c')%nat /\ dc_map c' = dc_map c /\ old_key (dc_rc c') (key buf) /\
    forall A (k : list Z -> res ioerr (A * list Z)) code hi (Q : A -> regs -> option val -> Prop) st en l,
      inv (dc_rc c) (dc_map c) (ds_regs st) en -> avail (key src) (ds_strs st) = Some l -> (dc_rc c' <= hi)%nat ->
      (forall st' l', extends (dc_rc c) (dc_rc c') st st' -> avail (key buf) (ds_strs st') = Some l' ->
         sim code (key buf) (dc_rc c') hi st' l' (k l') Q) ->
      stable Q ->
      sim (is ++ code) (key src) (dc_rc c) hi st l (sd_limit w inputs en len k l) Q.
  Proof.
    destruct len as [e|]; intros src c is buf c' H Hk; cbn [dlimit] in H.
    - gi H as r c1 G. apply deval_spec in H as (-> & -> & E1 & E2).
      gi G as b c2 G1. apply dfresh_spec in G as (-> & -> & E3 & E4).
      gi G1 as t1 c3 G. gtell G1. grt G. cbn [app]. rewrite E3, E4, E1, E2.
      split; [lia|]. split; [reflexivity|]. split; [intros r0 E0; cbn in E0; injection E0 as <-; lia|].
      intros A k code hi Q st en l HI Ha Lh Hc HQ. cbn [sd_limit].
      apply (sim_eval e _ _ _ en _ (key src) st l _ Q); [assumption|lia| |intros; apply HQ; assumption].
      intros v. set (st0 := {| ds_regs := (dc_rc c, v) :: ds_regs st; ds_strs := ds_strs st |}).
      match goal with |- sim (?ins :: code) _ _ _ _ _ _ _ => set (ci := ins); change (ci :: code) with ([ci] ++ code) end.
      assert (Hrun : drun ci st0 = let! n := limit_of v in Ok (DNext (dpush (Some (S (dc_rc c))) (STake (key src) n) st0))).
      { subst ci. cbn [Decode.drun]. unfold dreg, davail. cbn [ds_regs ds_strs st0 assoc]. rewrite Nat.eqb_refl, Ha. reflexivity. }
      destruct (limit_of v) as [n| | |]; cbn [bind] in *.
      2-4: unfold sim; rewrite dseq_app, dseq_one, Hrun; reflexivity.
      eapply (sim_take_limit code (key src) (S (dc_rc c)) (S (dc_rc c)) hi st0 l n k Q); [lia|exact Ha| |].
      + eapply sim_weaken; [apply Hc| | |]; [| |lia|lia|auto].
        * exists [(dc_rc c, v)]. split; [reflexivity|]. constructor; [cbn; lia|constructor].
        * cbn. rewrite Nat.eqb_refl, Ha. reflexivity.
      + rewrite dseq_one. exact Hrun.
    - grt H. split; [lia|]. split; [reflexivity|]. split; [assumption|].
      intros A k code hi Q st en l HI Ha Lh Hc HQ. cbn [app sd_limit]. apply Hc; [|assumption].
      exists []. split; [reflexivity|constructor].
  Qed.

  Lemma names_of_leaf a t : is_cont t = false -> names_of (a, t) = [] \/ names_of (a, t) = [fa_name a].
  Proof.
    intros E. unfold names_of, flatten_field. cbn [snd]. rewrite E. unfold leaf_names, leaf. cbn [filter fst snd].
    destruct (negb (fa_pad a || is_cont t)); [right|left]; reflexivity.
  Qed.

  Lemma dec_complex_ok t : untagged t = true -> forall a, kspec (dec_complex p rf false a t) (names_of (a, t)) (is_cont t) (sd_complex w p rf inputs srec a t).
  Proof.
    induction t as [e| | | |d|d|n|n args|el lc IH|len tg items IH] using ty_ind'; intros Hu a src c is em c' H Ho.
    10: {
      cbn [dec_complex] in H. cbn [sd_complex is_cont].
      destruct (fa_pad a) eqn:Ep; [discriminate|].
      cbn [untagged] in Hu. apply andb_true_iff in Hu as (Ht & Hu). destruct tg; [discriminate|]. clear Ht.
      fold (dlimit len src) in H. gi H as buf c1 G. cbn [negb] in G. gi G as dcd c2 G1. grt G1. rewrite app_nil_r.
      apply dlimit_ok in H as (L1 & M1 & K1 & R1); [|assumption].
      set (its := map (fun f => (fst f, snd f, dec_complex p rf false (fst f) (snd f))) items) in *.
      set (sits := map (fun f => (fst f, snd f, sd_complex w p rf inputs srec (fst f) (snd f))) items).
      assert (HF : Forall2 item_ok its sits).
      { subst its sits. clear - IH Hu Hrec Hsuf Hfsuf Hxsuf. induction items as [|[a t] items IHi]; cbn; constructor.
        - inversion IH as [|? ? H1 H2]; subst. cbn in Hu. apply andb_true_iff in Hu as (Hu1 & Hu2).
          split; [reflexivity|]. split; [reflexivity|]. split; [apply names_of_leaf|]. apply H1. exact Hu1.
        - inversion IH as [|? ? H1 H2]; subst. cbn in Hu. apply andb_true_iff in Hu as (Hu1 & Hu2). apply IHi; assumption. }
      destruct (dec_items_ok its sits HF _ _ _ _ _ G K1) as (L2 & F2 & N2 & M2 & R2).
      assert (En : flat_map (fun it => names_of (fst it)) its = names_of (a, TCont len false items)).
      { unfold names_of at 2, flatten_field. cbn [snd is_cont]. rewrite flatten_ty_cont, leaf_names_items.
        subst its. clear. induction items as [|[a t] items IH]; cbn [map flat_map fst snd]; [reflexivity|]. rewrite IH. reflexivity. }
      rewrite En, M1 in *.
      split; [lia|]. split; [eapply range_weaken; eauto|]. split; [assumption|]. split; [assumption|].
      intros st en l HI Ha. apply R1; [assumption|assumption|lia| |apply carries_stable].
      intros st' l' Hx Ha'. apply R2; [|assumption]. eapply extends_inv; eauto. }
    all: cbn [dec_complex] in H; cbn [sd_complex is_cont].
    all: destruct (fa_pad a) eqn:Ep; try discriminate.
    9: {
      destruct lc as [e| |e]; try discriminate.
      gi H as r c1 G. apply deval_spec in H as (-> & -> & E1 & E2).
      gi G as t1 c2 G1. gtell G. grt G1. cbn [app]. rewrite E1, E2.
      assert (En : names_of (a, TArr el (LFixed e)) = []) by (unfold names_of, flatten_field, leaf_names, leaf; cbn; rewrite Ep; reflexivity).
      rewrite En. split; [lia|]. split; [constructor|]. split; [reflexivity|]. split; [reflexivity|].
      intros st en l HI Ha.
      apply (sim_eval e _ _ _ en _ (key src) st l _ (carries [] [])); [assumption|lia| |intros; apply carries_stable; assumption].
      intros v. set (st0 := {| ds_regs := (dc_rc c, v) :: ds_regs st; ds_strs := ds_strs st |}).
      assert (Hrun : drun (DSkip src (dc_rc c)) st0 = let! n := len_of v in let! (_, st) := dtake src (read_exact n) st0 in Ok (DNext st)).
      { cbn [Decode.drun]. unfold dreg. cbn [ds_regs st0 assoc]. rewrite Nat.eqb_refl. reflexivity. }
      unfold sim. rewrite !dseq_one, !Hrun.
      destruct (len_of v) as [n| | |]; cbn [bind]; try reflexivity.
      pose proof (dtake_run src (read_exact n) st0 l Ha (read_exact_suffix n)) as D.
      destruct (read_exact n l) as [[x rest]| | |]; cbn [bind]; try (rewrite D; reflexivity).
      destruct D as (j & Lj & -> & D). rewrite D. cbn [bind].
      exists j, [], [], None. split; [assumption|]. split; [reflexivity|]. split; [constructor|]. split; [constructor|].
      split; [reflexivity|]. split; [reflexivity|]. split; [reflexivity|constructor]. }
    all: gi H as r c1 G; grt G; rewrite app_nil_r.
    all: apply dec_type_ok in H as (B1 & B2 & B3).
    all: match goal with |- context [names_of ?at0] =>
      assert (En : names_of at0 = [fa_name (fst at0)]) by (unfold names_of, flatten_field, leaf_names, leaf; cbn; rewrite Ep; reflexivity) end.
    all: rewrite En; split; [lia|]; split; [constructor; [lia|constructor]|]; split; [reflexivity|]; split; [assumption|].
    all: intros st en l HI Ha; eapply (sim_map (fun v => [(fa_name a, v)])); [apply B3; assumption|].
    all: intros v new ret (-> & Hv); split; [reflexivity|]; split; [reflexivity|]; constructor; [exact Hv|constructor].
  Qed.

  (** *** Building structs *)
  Lemma dec_names_spec l : forall c is nrs c', dec_names l c = Some (is, nrs, c') ->
    is = [] /\ c' = c /\ Forall2 (fun n x => fst x = n /\ lookup n (dc_map c) = Some (snd x)) (leaf_names l) nrs.
  Proof.
    induction l as [|[a t] l IH]; intros c is nrs c' H; cbn [dec_names] in H.
    - grt H. split; [reflexivity|]. split; [reflexivity|constructor].
    - unfold leaf_names. cbn [filter]. unfold leaf at 1. cbn [fst snd]. destruct (fa_pad a || is_cont t); cbn [negb].
      + apply IH. exact H.
      + gi H as r c1 G. gi G as rs c2 G1. grt G1. apply IH in G as (-> & -> & F).
        unfold dget in H. destruct (lookup (fa_name a) (dc_map c)) as [r'|] eqn:E; [|discriminate].
        injection H as <- <- <-. split; [reflexivity|]. split; [reflexivity|]. cbn [map fst]. constructor; [auto|exact F].
  Qed.

  Lemma lookup_combine_rev (names : list string) (em : list nat) (m : fmap) n r : NoDup names -> List.length names = List.length em ->
    In (n, r) (combine names em) -> lookup n (rev (combine names em) ++ m) = Some r.
  Proof.
    intros ND. revert em. induction ND as [|x names Hx ND IH]; intros [|y em] E Hin; try discriminate; [destruct Hin|].
    cbn [combine rev] in *. rewrite <- app_assoc. destruct Hin as [Hin|Hin].
    - injection Hin as -> ->. rewrite lookup_app.
      destruct (lookup n (rev (combine names em))) as [z|] eqn:El.
      + apply lookup_some_in in El. apply in_rev in El. apply in_combine_l in El. contradiction.
      + cbn [app]. rewrite lookup_cons, String.eqb_refl. reflexivity.
    - rewrite lookup_app. specialize (IH em ltac:(cbn in E; lia) Hin).
      rewrite lookup_app in IH. destruct (lookup n (rev (combine names em))) as [z|] eqn:El; [assumption|].
      exfalso. apply in_rev in Hin. clear - El Hin. revert El Hin. generalize (rev (combine names em)). intros L.
      induction L as [|[k v] L IH]; [contradiction|]. rewrite lookup_cons.
      destruct (String.eqb_spec k n) as [->|Hk]; [discriminate|]. intros El [Hin|Hin]; [congruence|auto].
  Qed.
  Lemma names_regs names em (m : fmap) nrs : NoDup names -> List.length names = List.length em ->
    Forall2 (fun n x => fst x = n /\ lookup n (rev (combine names em) ++ m) = Some (snd x)) names nrs -> nrs = combine names em.
  Proof.
    intros ND E F.
    assert (H : forall ns es xs, List.length ns = List.length es -> incl (combine ns es) (combine names em) ->
      Forall2 (fun n x => fst x = n /\ lookup n (rev (combine names em) ++ m) = Some (snd x)) ns xs -> xs = combine ns es).
    { clear F. intros ns es xs E' Hi F. revert es E' Hi. induction F as [|n [n' r] ns xs (E1 & E2) F IH]; intros [|e es] E' Hi; try discriminate; [reflexivity|].
      cbn in E1, E2, E'. subst n'. cbn [combine].
      rewrite (lookup_combine_rev names em m n e ND E) in E2 by (apply Hi; left; reflexivity).
      injection E2 as ->. f_equal. apply IH; [lia|]. intros y Hy. apply Hi. right. assumption. }
    apply H; [assumption|apply incl_refl|assumption].
  Qed.
  Lemma mapM_struct names em (vs : vals) new rg : List.length em = List.length names -> map fst vs = names ->
    Forall2 (fun r nv => assoc r new = Some (snd nv)) em vs ->
    mapM (fun nr => let! v := of_some (assoc (snd nr) (new ++ rg)) in Ok (fst nr, v) : res ioerr (string * val)) (combine names em) = Ok vs.
  Proof.
    intros E <- F. clear E. induction F as [|r [n v] em vs H F IH]; [reflexivity|]. cbn [map combine mapM fst snd].
    rewrite assoc_app, H. cbn [of_some bind snd]. rewrite IH. reflexivity.
  Qed.

  (** A single instruction that only defines a register. *)
  Lemma sim_let {A} i r v (a : A) st s l hi : drun i st = Ok (DNext (dlet r v st)) -> (r < hi)%nat ->
    sim [i] s r hi st l (Ok (a, l)) (fun b new ret => ret = None /\ new = [(r, v)] /\ b = a).
  Proof.
    intros H L. unfold sim. exists O, [(r, v)], [], None. split; [lia|]. split; [reflexivity|].
    split; [constructor; [cbn; lia|constructor]|]. split; [constructor|]. rewrite dseq_one, H, consume_0.
    split; [reflexivity|]. auto.
  Qed.
  Definition returns : val -> regs -> option val -> Prop := fun v _ ret => ret = Some v.
  Lemma returns_stable : stable returns.
  Proof. intros v new new0 ret H. exact H. Qed.
  Lemma sim_return r v st s l lo hi : assoc r (ds_regs st) = Some v ->
    sim [DReturn r] s lo hi st l (Ok (v, l)) returns.
  Proof.
    intros H. unfold sim. exists O, [], [], (Some v). split; [lia|]. split; [reflexivity|].
    split; [constructor|]. split; [constructor|]. split; [|reflexivity].
    rewrite dseq_one, consume_0. cbn [Decode.drun]. unfold dreg. rewrite H. cbn. destruct st; reflexivity.
  Qed.

  Lemma sim_ret code r s lo hi st l (x : res ioerr (val * list Z)) :
    sim code s lo hi st l x (reads r) -> sim (code ++ [DReturn r]) s lo hi st l x returns.
  Proof.
    unfold sim. rewrite !dseq_app. destruct x as [[v rest]| | |]; try (intros ->; reflexivity).
    intros (j & new & g & ret & A1 & A2 & A3 & A4 & A5 & -> & A6). cbn zeta in A5. rewrite A5. cbn [bind].
    exists j, new, g, (Some v). repeat (split; [assumption|]). split; [|reflexivity].
    rewrite dseq_one. cbn [Decode.drun]. unfold dreg. cbn [ds_regs]. rewrite assoc_app, A6. reflexivity.
  Qed.

  (** *** Tagged enums *)
  Lemma dec_variant_ok name a t k sk : kspec k (names_of (a, t)) (is_cont t) sk ->
    (is_cont t = true -> NoDup (names_of (a, t))) ->
    forall src c is tgt c', dec_variant name a t k src c = Some (is, tgt, c') -> old_key (dc_rc c) (key src) ->
      (dc_rc c <= tgt < dc_rc c')%nat
      /\ (exists leak, dc_map c' = leak ++ dc_map c /\ Forall (fun nr => (dc_rc c <= snd nr < dc_rc c')%nat) leak)
      /\ forall st en l, inv (dc_rc c) (dc_map c) (ds_regs st) en -> avail (key src) (ds_strs st) = Some l ->
           sim is (key src) (dc_rc c) (dc_rc c') st l
             (let! (vs, l) := sd_xs w inputs en (rev (fa_xs a)) (sk en) l in
              if is_cont t then Ok (VVariantS name (fa_name a) vs, l)
              else match vs with (_, v) :: _ => Ok (VVariant name (fa_name a) v, l) | [] => Panic end) (reads tgt).
  Proof.
    intros Hk ND src c is tgt c' H Ho. pose proof (dec_uncond_ok k a _ _ _ Hk) as Hu.
    unfold dec_variant in H. gi H as em c1 G. gi G as tg c2 G1. apply dfresh_spec in G as (-> & -> & E1 & E2). cbn [app].
    destruct (Hu _ _ _ _ _ H Ho) as (L1 & F1 & N1 & M1 & R1).
    destruct (is_cont t) eqn:Ec.
    - gi G1 as nrs c3 G. gi G as t3 c4 G2. gtell G. grt G2. apply dec_names_spec in G1 as (-> & -> & FN). cbn [app].
      rewrite E1, E2, M1 in *. split; [lia|]. split.
      { eexists. split; [reflexivity|]. apply Forall_rev. apply Forall_forall. intros [n r] Hin. apply in_combine_r in Hin.
        rewrite Forall_forall in F1. apply F1 in Hin. cbn. lia. }
      intros st en l HI Ha.
      assert (Hn : leaf_names (flatten_ty t) = names_of (a, t)).
      { unfold names_of, flatten_field. cbn [snd]. rewrite Ec. reflexivity. }
      rewrite Hn in FN. apply names_regs in FN; [|auto|symmetry; assumption]. subst nrs.
      eapply (sim_seq i [DConstruct (dc_rc c1) (CVariantS name (fa_name a) (combine (names_of (a, t)) em))] (key src) (dc_rc c) (dc_rc c1) (S (dc_rc c1)) st l _
        (fun vs l => Ok (VVariantS name (fa_name a) vs, l)) (carries (names_of (a, t)) em)); try lia; try assumption.
      + apply R1; assumption.
      + intros ? ? ? (E & _). exact E.
      + intros vs new st' l' (_ & Q1 & Q2) K ER Ha'.
        eapply sim_weaken; [eapply (sim_let _ (dc_rc c1) (VVariantS name (fa_name a) vs) _ _ _ _ (S (dc_rc c1)))| | |]; try lia.
        * cbn [Decode.drun]. unfold dreg. rewrite ER. rewrite (mapM_struct _ _ vs) by assumption. reflexivity.
        * intros a0 new0 ret _ (-> & -> & ->) _. split; [reflexivity|]. cbn. rewrite Nat.eqb_refl. reflexivity.
    - destruct em as [|r0 em]; [discriminate|]. gi G1 as t3 c4 G2. gtell G1. grt G2. cbn [app].
      rewrite E1, E2, M1 in *. split; [lia|]. split; [exists []; split; [reflexivity|constructor]|].
      intros st en l HI Ha.
      eapply (sim_seq i [DConstruct (dc_rc c1) (CVariant name (fa_name a) r0)] (key src) (dc_rc c) (dc_rc c1) (S (dc_rc c1)) st l _
        (fun vs l => match vs with (_, v) :: _ => Ok (VVariant name (fa_name a) v, l) | [] => Panic end) (carries (names_of (a, t)) (r0 :: em))); try lia; try assumption.
      + apply R1; assumption.
      + intros ? ? ? (E & _). exact E.
      + intros vs new st' l' (_ & Q1 & Q2) K ER Ha'. inversion Q2 as [|? [n v] ? vs' Hv Q2']; subst.
        eapply sim_weaken; [eapply (sim_let _ (dc_rc c1) (VVariant name (fa_name a) v) _ _ _ _ (S (dc_rc c1)))| | |]; try lia.
        * cbn [Decode.drun]. unfold dreg. rewrite ER, assoc_app, Hv. reflexivity.
        * intros a0 new0 ret _ (-> & -> & ->) _. split; [reflexivity|]. cbn. rewrite Nat.eqb_refl. reflexivity.
  Qed.

  Definition variant_ok (it : ditem) (f : fattr * ty) : Prop :=
    let '(a, t, k) := it in
    f = (a, t) /\ kspec k (names_of (a, t)) (is_cont t) (sd_complex w p rf inputs srec a t)
    /\ (is_cont t = true -> NoDup (names_of (a, t))).
  Definition ret_of (em : list nat) : list dinstr := match em with v :: _ => [DReturn v] | [] => [] end.

  Lemma dec_variants_ok name its : forall items, Forall2 variant_ok its items ->
    forall src c is em c', dec_variants name its src c = Some (is, em, c') -> old_key (dc_rc c) (key src) ->
      (dc_rc c <= dc_rc c')%nat /\ (List.length em <= 1)%nat /\
      forall st l, inv (dc_rc c) (dc_map c) (ds_regs st) [] -> avail (key src) (ds_strs st) = Some l ->
        sim (is ++ ret_of em) (key src) (dc_rc c) (dc_rc c') st l (sd_variants w p rf inputs srec name items l) returns.
  Proof.
    induction its as [|[[a t] k] its IH]; intros items HF src c is em c' H Ho; inversion HF as [|? [a' t'] ? items' Hit HF']; subst.
    - cbn [dec_variants] in H. gi H as t1 c1 G. gtell H. grt G. split; [lia|]. split; [cbn; lia|]. intros st l HI Ha.
      unfold sim. cbn [app ret_of sd_variants]. rewrite dseq_one. reflexivity.
    - destruct Hit as (E & Hk & ND). injection E as -> ->.
      cbn [dec_variants] in H. unfold dec_cond in H. cbn [sd_variants]. gi H as co c1 G.
      destruct (fa_cond a) as [e|].
      + gi H as rc0 c2 G1. apply deval_spec in H as (-> & -> & E1 & E2). grt G1. cbn [app].
        gi G as t2 c3 H. apply block_some in G as (body & u & G & -> & ->). cbn [app].
        gi H as t3 c4 G1. gtell H.
        gi G as tgt c5 H. gtell H.
        destruct (dec_variant_ok name a t k _ Hk ND _ _ _ _ _ G (old_key_le _ (dc_rc c2) _ Ho ltac:(lia))) as (T1 & (leak & ML & FL) & R1).
        destruct (IH items' HF' _ _ _ _ _ G1 (old_key_le _ (dc_rc c5) _ Ho ltac:(lia))) as (L2 & N2 & R2).
        rewrite E1, E2, ML in *. split; [lia|]. split; [assumption|]. intros st l HI Ha. cbn [app].
        rewrite bind_assoc.
        eapply (sim_eval e _ _ _ [] _ (key src) st l _ returns); [assumption|lia| |intros; assumption].
        intros v. set (st0 := {| ds_regs := (dc_rc c, v) :: ds_regs st; ds_strs := ds_strs st |}).
        assert (HI0 : inv (S (dc_rc c)) (dc_map c) (ds_regs st0) []) by (apply inv_cons; [assumption|lia]).
        match goal with |- sim (?ins :: ?code) _ _ _ _ _ _ _ => set (ci := ins); change (ci :: code) with ([ci] ++ code) end.
        assert (Hrun : drun ci st0 = let! b := bool_of v in
          if b then
            let! o := dseq (i ++ [DReturn tgt]) st0 in
            match o with DRet v st => Ok (DRet v st) | DNext st' => Ok (DNext (dleave st0 st')) end
          else Ok (DNext st0)).
        { subst ci. cbn [Decode.drun]. unfold dreg at 1. cbn [ds_regs st0 assoc]. rewrite Nat.eqb_refl. reflexivity. }
        destruct (bool_of v) as [b| | |]; cbn [bind] in *.
        2-4: unfold sim; rewrite dseq_app, dseq_one, Hrun; reflexivity.
        destruct b.
        * specialize (R1 st0 [] l HI0 Ha). apply sim_ret in R1. unfold sim in R1 |- *. rewrite !(dseq_app [ci]), !dseq_one, !Hrun.
          destruct (bind _ _) as [[x rest]| | |]; try (rewrite R1; reflexivity).
          destruct R1 as (j & new & g & ret & A1 & A2 & A3 & A4 & A5 & A6). unfold returns in A6. subst ret.
          exists j, new, g, (Some x). cbn zeta in *. rewrite A5. cbn [bind].
          split; [assumption|]. split; [assumption|].
          split; [eapply keys_in_weaken; [eassumption| |]; lia|]. split; [eapply skeys_in_weaken; [eassumption| |]; lia|].
          split; reflexivity.
        * unfold sim. rewrite !(dseq_app [ci]), !dseq_one, !Hrun. cbn [bind]. fold (sim (i0 ++ ret_of em) (key src) (S (dc_rc c)) (dc_rc c') st0 l (sd_variants w p rf inputs srec name items' l) returns).
          eapply sim_weaken; [apply R2| | |]; [|exact Ha|lia|lia|auto].
          destruct HI0 as (J1 & J2 & J3). split; [|split].
          -- eapply Forall_impl; [|exact J1]. cbn. intros. lia.
          -- apply Forall_app. split.
             ++ eapply Forall_impl; [|exact FL]. cbn. intros. lia.
             ++ eapply Forall_impl; [|exact J2]. cbn. intros. lia.
          -- intros n. rewrite lookup_app, (J3 n). destruct (lookup n leak) as [r|] eqn:El; [|reflexivity].
             rewrite <- (J3 n), lookup_nil. apply lookup_some_in in El. rewrite Forall_forall in FL. apply FL in El. cbn in El.
             symmetry. clear - El J1. revert J1. generalize (ds_regs st0). intros rg J. induction J as [|[q z] rg Hq J IHj]; [reflexivity|].
             cbn in *. destruct (Nat.eqb_spec r q); [lia|apply IHj].
      + grt H. cbn [app] in *. gi G as tgt c3 G1. grt G1. rewrite app_nil_r.
        destruct (dec_variant_ok name a t k _ Hk ND _ _ _ _ _ G Ho) as (T1 & (leak & ML & FL) & R1).
        split; [lia|]. split; [cbn; lia|]. intros st l HI Ha. cbn [bind ret_of]. apply sim_ret. apply R1; assumption.
  Qed.

  (** *** Declarations *)
  Lemma sd_limit_map {A B} (h : A -> B) en len (k : list Z -> res ioerr (A * list Z)) l :
    sd_limit w inputs en len (fun l => let! (a, l) := k l in Ok (h a, l)) l =
    let! (a, l) := sd_limit w inputs en len k l in Ok (h a, l).
  Proof.
    destruct len as [e|]; cbn [sd_limit]; [|reflexivity].
    destruct (ev en e) as [v| | |]; cbn [bind]; try reflexivity.
    destruct (limit_of v) as [n| | |]; cbn [bind]; try reflexivity.
    destruct (k (firstn n l)) as [[x r]| | |]; reflexivity.
  Qed.

  Definition dec_wf (d : decl) : Prop :=
    fa_cond (d_attr d) = None /\ fa_pad (d_attr d) = false /\
    match d_ty d with
    | TCont _ true items =>
        Forall (fun f => untagged (snd f) = true /\ (is_cont (snd f) = true -> NoDup (leaf_names (flatten_ty (snd f))))) items
    | TCont _ false items => Forall (fun f => untagged (snd f) = true) items /\ NoDup (leaf_names (flatten_items items))
    | _ => True
    end.

  (** The instructions after the value of a declaration has been read. *)
  Definition top_tail (d : decl) (value : list nat) : dgen unit :=
    do value <- match d_ty d, value with
                | (TForeign _ | TCont _ _ _ | TEnum _ | TBits _), _ => gret value
                | _, old :: _ => do r <- dfresh; do _ <- tell (DConstruct r (CTagged (fa_name (d_attr d)) old)); gret [r]
                | _, [] => gret value
                end;
    match value with
    | v :: _ => tell (DReturn v)
    | [] => gret tt
    end.

  Lemma dec_body_ok d : dec_wf d -> forall src c is em c1 is' u c2, dec_complex p rf true (d_attr d) (d_ty d) src c = Some (is, em, c1) ->
    (List.length em <= 1)%nat -> top_tail d em c1 = Some (is', u, c2) -> old_key (dc_rc c) (key src) ->
    (dc_rc c <= dc_rc c2)%nat /\
    forall st l, inv (dc_rc c) (dc_map c) (ds_regs st) [] -> avail (key src) (ds_strs st) = Some l ->
      sim (is ++ is') (key src) (dc_rc c) (dc_rc c2) st l
        (match d_ty d with
         | TCont len true items => sd_limit w inputs [] len (sd_variants w p rf inputs srec (fa_name (d_attr d)) items) l
         | TCont len false items =>
             let! (vs, l) := sd_limit w inputs [] len (sd_items w inputs (map (sd_item w p rf inputs srec) items) []) l in
             Ok (VStruct (fa_name (d_attr d)) vs, l)
         | TEnum _ | TBits _ | TForeign _ => sd_type w p rf inputs srec [] (d_ty d) l
         | t => let! (v, l) := sd_type w p rf inputs srec [] t l in Ok (VTup v, l)
         end) returns.
  Proof.
    intros (Hc & Hp & Hwf) src c is em c1 is' u c2 H Hlen HT Ho.
    set (name := fa_name (d_attr d)) in *.
    assert (Hscalar : forall t, is_cont t = false -> forall is em c1, dec_complex p rf true (d_attr d) t src c = Some (is, em, c1) ->
      exists r, em = [r] /\ (dc_rc c <= r < dc_rc c1)%nat /\
      forall st l, inv (dc_rc c) (dc_map c) (ds_regs st) [] -> avail (key src) (ds_strs st) = Some l ->
        sim is (key src) (dc_rc c) (dc_rc c1) st l (sd_type w p rf inputs srec [] t l) (reads r)).
    { intros t Ht is0 em0 c10 H0.
      assert (X : (do r <- dec_type p rf t src; gret [r]) c = Some (is0, em0, c10)).
      { destruct t; try discriminate Ht; cbn [dec_complex] in H0; rewrite Hp in H0; exact H0. }
      gi X as r c3 G. grt G. rewrite app_nil_r. apply dec_type_ok in X as (B1 & B2 & B3).
      exists r. split; [reflexivity|]. split; [assumption|]. intros st l HI Ha. apply B3; assumption. }
    assert (Hplain : forall t, is_cont t = false -> dec_complex p rf true (d_attr d) t src c = Some (is, em, c1) ->
      (exists r, em = [r] /\ is' = [DReturn r] /\ c2 = c1) ->
      (dc_rc c <= dc_rc c2)%nat /\
      forall st l, inv (dc_rc c) (dc_map c) (ds_regs st) [] -> avail (key src) (ds_strs st) = Some l ->
      sim (is ++ is') (key src) (dc_rc c) (dc_rc c2) st l (sd_type w p rf inputs srec [] t l) returns).
    { intros t Ht H0 (r & -> & -> & ->). destruct (Hscalar t Ht _ _ _ H0) as (r' & E & L & R). injection E as <-.
      split; [lia|]. intros st l HI Ha. apply sim_ret. apply R; assumption. }
    assert (Htup : forall t, is_cont t = false -> dec_complex p rf true (d_attr d) t src c = Some (is, em, c1) ->
      (exists r, em = [r] /\ is' = [DConstruct (dc_rc c1) (CTagged name r); DReturn (dc_rc c1)] /\ dc_rc c2 = S (dc_rc c1)) ->
      (dc_rc c <= dc_rc c2)%nat /\
      forall st l, inv (dc_rc c) (dc_map c) (ds_regs st) [] -> avail (key src) (ds_strs st) = Some l ->
      sim (is ++ is') (key src) (dc_rc c) (dc_rc c2) st l (let! (v, l) := sd_type w p rf inputs srec [] t l in Ok (VTup v, l)) returns).
    { intros t Ht H0 (r & -> & -> & E2). destruct (Hscalar t Ht _ _ _ H0) as (r' & E & L & R). injection E as <-.
      split; [lia|]. intros st l HI Ha. rewrite E2.
      change (is ++ [DConstruct (dc_rc c1) (CTagged name r); DReturn (dc_rc c1)]) with (is ++ [DConstruct (dc_rc c1) (CTagged name r)] ++ [DReturn (dc_rc c1)]).
      rewrite app_assoc. apply sim_ret.
      apply (sim_seq is [DConstruct (dc_rc c1) (CTagged name r)] (key src) (dc_rc c) (dc_rc c1) (S (dc_rc c1)) st l _
        (fun v l => Ok (VTup v, l)) (reads r)); try lia; try assumption.
      - apply R; assumption.
      - intros ? ? ? (X & _). exact X.
      - intros v new st' l' (_ & Q) K ER Ha'.
        eapply sim_weaken; [eapply (sim_let _ (dc_rc c1) (VTup v) _ _ _ _ (S (dc_rc c1)))| | |]; try lia.
        + cbn [Decode.drun]. unfold dreg. rewrite ER, assoc_app, Q. reflexivity.
        + intros a0 new0 ret _ (-> & -> & ->) _. split; [reflexivity|]. cbn. rewrite Nat.eqb_refl. reflexivity. }
    unfold top_tail in HT. fold name in HT.
    destruct (d_ty d) as [e| | | |de|db|n|n args|el lc|len tg items] eqn:Et.
    10: {
      assert (X : is' = ret_of em /\ c2 = c1).
      { gi HT as v c3 G. grt HT. cbn [app]. destruct em; cbn [ret_of]; [grt G|gtell G]; auto. }
      destruct X as (-> & ->). clear HT. cbn [dec_complex] in H. rewrite Hp in H.
      set (its := map (fun f => (fst f, snd f, dec_complex p rf false (fst f) (snd f))) items) in *.
      fold (dlimit len src) in H. gi H as buf c3 G1.
      apply dlimit_ok in H as (L1 & M1 & K1 & R1); [|assumption].
      destruct tg.
      - assert (HF : Forall2 variant_ok its items).
        { subst its. clear - Hwf Hrec Hsuf Hfsuf Hxsuf. induction items as [|[a t] items IHi]; cbn; constructor.
          - inversion Hwf as [|? ? (H1 & H1') H2]; subst. cbn in H1, H1'. split; [reflexivity|]. split; [apply dec_complex_ok; assumption|].
            intros E. unfold names_of, flatten_field. cbn [snd]. rewrite E. auto.
          - inversion Hwf; subst. apply IHi; assumption. }
        destruct (dec_variants_ok _ its items HF _ _ _ _ _ G1 K1) as (L2 & N2 & R2).
        split; [lia|]. intros st l HI Ha. rewrite <- app_assoc.
        apply R1; [assumption|assumption|lia| |apply returns_stable].
        intros st' l' Hx Ha'. apply R2; [|assumption]. rewrite M1. eapply extends_inv; eauto.
      - cbn [negb] in G1. gi G1 as dcd c4 G2. gi G2 as r0 c5 G3. apply dfresh_spec in G2 as (-> & -> & E1 & E2).
        gi G3 as nrs c6 G2. apply dec_names_spec in G3 as (-> & -> & FN). gi G2 as t7 c7 G3. gtell G2. grt G3. cbn [app ret_of].
        destruct Hwf as (Hu & ND).
        set (sits := map (sd_item w p rf inputs srec) items).
        assert (HF : Forall2 item_ok its sits).
        { subst its sits. clear - Hu Hrec Hsuf Hfsuf Hxsuf. induction items as [|[a t] items IHi]; cbn; constructor.
          - inversion Hu; subst. split; [reflexivity|]. split; [reflexivity|]. split; [apply names_of_leaf|]. apply dec_complex_ok. assumption.
          - inversion Hu; subst. apply IHi; assumption. }
        destruct (dec_items_ok its sits HF _ _ _ _ _ G1 K1) as (L2 & F2 & N2 & M2 & R2).
        assert (En : flat_map (fun it => names_of (fst it)) its = leaf_names (flatten_items items)).
        { rewrite leaf_names_items. subst its. clear. induction items as [|[a t] items IH]; cbn [map flat_map fst snd]; [reflexivity|]. rewrite IH. reflexivity. }
        rewrite En in *. rewrite E1, E2, M2, M1 in *. split; [lia|].
        apply names_regs in FN; [|assumption|symmetry; assumption]. subst nrs.
        intros st l HI Ha. rewrite <- !app_assoc. rewrite <- sd_limit_map.
        apply R1; [assumption|assumption|lia| |apply returns_stable].
        intros st' l' Hx Ha'. rewrite app_assoc. apply sim_ret.
        apply (sim_seq _ [DConstruct (dc_rc c4) (CStruct name (combine (leaf_names (flatten_items items)) dcd))] (key buf) (dc_rc c3) (dc_rc c4) (S (dc_rc c4)) st' l' _
          (fun vs l => Ok (VStruct name vs, l)) (carries (leaf_names (flatten_items items)) dcd)); try lia; try assumption.
        + apply R2; [|assumption]. eapply extends_inv; eauto.
        + intros ? ? ? (X & _). exact X.
        + intros vs new st2 l2 (_ & Q1 & Q2) K ER Ha2.
          eapply sim_weaken; [eapply (sim_let _ (dc_rc c4) (VStruct name vs) _ _ _ _ (S (dc_rc c4)))| | |]; try lia.
          * cbn [Decode.drun]. unfold dreg. rewrite ER. rewrite (mapM_struct _ _ vs) by assumption. reflexivity.
          * intros a0 new0 ret _ (-> & -> & ->) _. split; [reflexivity|]. cbn. rewrite Nat.eqb_refl. reflexivity. }
    all: match goal with Et : d_ty _ = ?t |- _ => pose proof (Hscalar t eq_refl _ _ _ H) as (r & -> & _ & _) end.
    5,6,7: apply Hplain; [reflexivity|assumption|]; gi HT as v c3 G; grt HT; gtell G; exists r; auto.
    all: apply Htup; [reflexivity|assumption|]; gi HT as v c3 G; gi HT as r1 c4 G1;
      apply dfresh_spec in HT as (-> & -> & ? & ?); gi G1 as t5 c5 G2; gtell G1; grt G2; gtell G; exists r; auto.
  Qed.

  Lemma dec_top_ok d : dec_wf d -> forall is u c', dec_top p rf d {| dc_rc := 0; dc_map := [] |} = Some (is, u, c') -> forall l,
    sim is None 0 (dc_rc c') {| ds_regs := []; ds_strs := [(None, SOwn l)] |} l (sd_top w p rf inputs srec d l) returns.
  Proof.
    intros Hwf is u c' H l. pose proof Hwf as (Hc & Hp & _). unfold dec_top in H.
    gi H as value c1 G. destruct (Nat.ltb_spec 1 (List.length value)) as [|Hlen]; [discriminate|].
    fold (top_tail d value) in G.
    unfold dec_field, dec_cond in H. rewrite Hc, Hp in H. gi H as t1 c2 H1. grt H. unfold dec_uncond in H1. cbn [app].
    gi H1 as s c3 H. apply dec_xs_ok in H1 as (L1 & M1 & K1 & R1); [|intros r E; discriminate].
    rewrite <- app_assoc. unfold sd_top.
    destruct (dec_body_ok d Hwf _ _ _ _ _ _ _ _ H Hlen G K1) as (L2 & R2).
    assert (HI0 : inv 0 [] [] []).
    { split; [constructor|]. split; [constructor|]. intros n. rewrite !lookup_nil. reflexivity. }
    apply (R1 _ _ _ _ _ _ [] l); [exact HI0|reflexivity|lia| |apply returns_stable].
    intros st' l' Hx Ha. apply R2; [|assumption]. rewrite M1. exact (extends_inv _ _ _ _ _ _ (HI0 : inv 0 [] (ds_regs {| ds_regs := []; ds_strs := [(None, SOwn l)] |}) []) L1 Hx).
  Qed.

  Lemma drun_top_ok d code : dec_wf d -> dec_code p rf d = Some code -> forall l,
    drun_top w inputs rec code l = sd_top w p rf inputs srec d l /\ suffixing (sd_top w p rf inputs srec d).
  Proof.
    intros Hwf H. unfold dec_code in H. destruct (dec_top p rf d _) as [[[is u] c']|] eqn:E; [|discriminate]. injection H as <-.
    pose proof (dec_top_ok d Hwf _ _ _ E) as S. intros l. split.
    - specialize (S l). unfold drun_top. unfold sim in S. destruct (sd_top w p rf inputs srec d l) as [[v rest]| | |]; try (rewrite S; reflexivity).
      destruct S as (j & new & g & ret & A1 & A2 & A3 & A4 & A5 & A6). unfold returns in A6. subst ret. cbn zeta in A5. rewrite A5. cbn [bind ds_strs consume].
      rewrite truncate_app by reflexivity. cbn. rewrite A2. reflexivity.
    - intros l0 v rest El. specialize (S l0). rewrite El in S. destruct S as (j & _ & _ & _ & A1 & A2 & _). exists j. auto.
  Qed.
End Dec.

(** ** Whole programs *)
Definition world_suffixing (w : world) : Prop :=
  (forall n vs, suffixing (w_fdec w n vs)) /\ (forall n vs, suffixing (w_xdec w n vs)).
(** Every declaration compiles and has distinct field names. *)
Definition dec_ok (p : program) (rf : nat) : Prop :=
  forall n d, p n = Some d -> dec_wf d /\ dec_code p rf d <> None.

Theorem decode_refines w p rf : world_suffixing w -> dec_ok p rf ->
  forall fuel n args l, decode w p rf fuel n args l = sdecode w p rf fuel n args l /\ suffixing (sdecode w p rf fuel n args).
Proof.
  intros (Hf & Hx) Hp. induction fuel as [|fuel IH]; intros n args l.
  - split; [reflexivity|]. intros l0 a rest H. discriminate.
  - cbn [decode sdecode]. destruct (p n) as [d|] eqn:Ed; cbn [of_some bind].
    2: { split; [reflexivity|]. intros l0 a rest H. discriminate. }
    destruct (Hp _ _ Ed) as (Hwf & Hc). destruct (dec_code p rf d) as [code|] eqn:Ec; [|congruence]. cbn [of_some bind].
    destruct (bind_params w (d_params d) args []) as [inp| | |]; cbn [bind].
    2-4: split; [reflexivity|]; intros l0 a rest H; discriminate.
    eapply drun_top_ok; eauto. all: intros; apply IH. exact [].
Qed.
