(** Refinement: the generated encoder writes exactly what the reference semantics says.
    Facts about the generator (coder/encode/*.rs) and the emitted instructions
    (compiler/encoder.rs); statements are in P_Coder.v. *)
From Verif Require Import EncWf DecRef.

(** ** Names *)
Lemma mem_In n l : mem n l = true <-> In n l.
Proof.
  unfold mem. rewrite existsb_exists. split.
  - intros (x & H & E). apply String.eqb_eq in E. subst. assumption.
  - intros H. exists n. split; [assumption|apply String.eqb_refl].
Qed.
Lemma mem_not n l : mem n l = false <-> ~ In n l.
Proof. rewrite <- mem_In. destruct (mem n l); intuition congruence. Qed.
Lemma subset_incl a b : subset a b = true -> incl a b.
Proof. unfold subset. rewrite forallb_forall. intros H n Hn. apply mem_In. auto. Qed.
Lemma disjoint_not a b : disjoint a b = true -> forall n, In n a -> ~ In n b.
Proof. unfold disjoint. rewrite forallb_forall. intros H n Hn. apply mem_not. apply H in Hn. destruct (mem n b); [discriminate|reflexivity]. Qed.
Lemma nodup_NoDup l : nodup l = true -> NoDup l.
Proof.
  induction l as [|n l IH]; cbn; intros H; constructor; apply andb_true_iff in H as (H1 & H2); [|auto].
  apply mem_not. destruct (mem n l); [discriminate|reflexivity].
Qed.
Lemma NoDup_app_inv {A} (a b : list A) : NoDup (a ++ b) -> NoDup a /\ NoDup b /\ (forall x, In x a -> ~ In x b).
Proof.
  induction a as [|x a IH]; cbn; intros H.
  - split; [constructor|]. split; [assumption|]. intros ? [].
  - inversion H as [|? ? H1 H2]; subst. apply IH in H2 as (A1 & A2 & A3). rewrite in_app_iff in H1. split; [constructor; tauto|].
    split; [assumption|]. intros y [->|Hy]; [tauto|auto].
Qed.
Lemma blen_name_inj a b : blen_name a = blen_name b -> a = b.
Proof. unfold blen_name. cbn. intros H. congruence. Qed.

(** ** Evaluation depends only on the fields an expression mentions *)
Fixpoint rfv (r : rexpr) : list string :=
  match r with
  | RBin _ l r => rfv l ++ rfv r
  | RUn _ e | RAs e _ | RRepr e | RRaw e | RMember e _ => rfv e
  | RIndex a i => rfv a ++ rfv i
  | RField n => [n]
  | RIf c a b => rfv c ++ rfv a ++ rfv b
  | RCall _ args => (fix go l := match l with [] => [] | x :: l => rfv x ++ go l end) args
  | _ => []
  end.
Lemma reval_on chk ufn f g inp : forall r, (forall n, In n (rfv r) -> f n = g n) -> reval chk ufn f inp r = reval chk ufn g inp r.
Proof.
  induction r using rexpr_ind'; cbn; intros H'; try reflexivity.
  - rewrite IHr1, IHr2 by (intros; apply H'; apply in_app_iff; auto). reflexivity.
  - rewrite IHr by auto. reflexivity.
  - rewrite IHr by auto. reflexivity.
  - rewrite IHr by auto. reflexivity.
  - rewrite IHr by auto. reflexivity.
  - rewrite H' by auto. reflexivity.
  - rewrite IHr1, IHr2, IHr3 by (intros; apply H'; rewrite !in_app_iff; auto). reflexivity.
  - match goal with |- bind ?x _ = bind ?y _ => replace x with y; [reflexivity|] end.
    match goal with F : Forall _ _ |- _ => induction F as [|x l E F IH] end; [reflexivity|].
    rewrite E, IH by (intros; apply H'; apply in_app_iff; auto). reflexivity.
  - rewrite IHr by auto. reflexivity.
Qed.
Lemma rfv_emit fty e : incl (rfv (emit fty e)) (fv e).
Proof.
  induction e using expr_ind'; cbn; try (apply incl_refl || (intros x []; fail)).
  - assert (X : incl (rfv (emit fty e1) ++ rfv (emit fty e2)) (fv e1 ++ fv e2)).
    { apply incl_app; [apply incl_appl|apply incl_appr]; assumption. }
    destruct op; cbn; try assumption. intros x [].
  - unfold remit_un. destruct (emit fty e); cbn in *; assumption.
  - destruct (get_type fty e) as [[]|]; cbn; assumption.
  - apply incl_app; [apply incl_appl|apply incl_appr]; assumption.
  - apply incl_app; [apply incl_appl; assumption|]. apply incl_appr. apply incl_app; [apply incl_appl|apply incl_appr]; assumption.
  - match goal with F : Forall _ _ |- _ => induction F as [|x l E F IH] end; [intros x []|]. cbn.
    apply incl_app; [apply incl_appl|apply incl_appr]; assumption.
  - destruct (emit fty e); cbn in *; try assumption. intros x [].
Qed.
Lemma eval_on w inp f g e : (forall n, In n (fv e) -> f n = g n) -> eval w inp f e = eval w inp g e.
Proof. intros H. apply reval_on. intros n Hn. apply H. apply rfv_emit in Hn. assumption. Qed.

(** ** Sinks *)
Definition writable (k : option nat) (l : sinks) : Prop := wr k [] l = Some l.
Lemma wr_length k b l l' : wr k b l = Some l' -> List.length l' = List.length l.
Proof.
  revert k l'. induction l as [|[k' s] l IH]; intros k l'; cbn; [discriminate|].
  destruct (key_eqb k k').
  - destruct s; intros H; try (injection H as <-; reflexivity); [|discriminate].
    destruct (wr parent b l) eqn:E; [|discriminate]. injection H as <-. cbn. erewrite IH; eauto.
  - destruct (wr k b l) eqn:E; [|discriminate]. intros H. injection H as <-. cbn. erewrite IH; eauto.
Qed.
Lemma wr_app k a b l l' : wr k a l = Some l' -> wr k b l' = wr k (a ++ b) l.
Proof.
  revert k l'. induction l as [|[k' s] l IH]; intros k l'; cbn; [discriminate|].
  destruct (key_eqb k k') eqn:E.
  - destruct s; intros H; try discriminate; try (injection H as <-; cbn; rewrite E, app_assoc; reflexivity).
    destruct (wr parent a l) eqn:E1; [|discriminate]. injection H as <-. cbn. rewrite E, (IH _ _ E1). reflexivity.
  - destruct (wr k a l) eqn:E1; [|discriminate]. intros H. injection H as <-. cbn. rewrite E, (IH _ _ E1). reflexivity.
Qed.
Lemma wr_any k a b l l' : wr k a l = Some l' -> exists l'', wr k b l = Some l''.
Proof.
  revert k l'. induction l as [|[k' s] l IH]; intros k l'; cbn; [discriminate|].
  destruct (key_eqb k k').
  - destruct s; intros H; try discriminate; try (eexists; reflexivity).
    destruct (wr parent a l) eqn:E1; [|discriminate]. destruct (IH _ _ E1) as (l'' & ->). eexists; reflexivity.
  - destruct (wr k a l) eqn:E1; [|discriminate]. destruct (IH _ _ E1) as (l'' & ->). eexists; reflexivity.
Qed.
Lemma wr_nil k l l' : wr k [] l = Some l' -> l' = l.
Proof.
  revert k l'. induction l as [|[k' s] l IH]; intros k l'; cbn; [discriminate|].
  destruct (key_eqb k k').
  - destruct s; intros H; try discriminate; try (injection H as <-; rewrite app_nil_r; reflexivity).
    destruct (wr parent [] l) eqn:E1; [|discriminate]. injection H as <-. rewrite (IH _ _ E1). reflexivity.
  - destruct (wr k [] l) eqn:E1; [|discriminate]. intros H. injection H as <-. rewrite (IH _ _ E1). reflexivity.
Qed.
Lemma wr_writable k b l l' : wr k b l = Some l' -> writable k l'.
Proof. intros H. unfold writable. rewrite (wr_app _ _ _ _ _ H), app_nil_r. exact H. Qed.
Lemma writable_wr k l b : writable k l -> exists l', wr k b l = Some l'.
Proof. intros H. eapply wr_any. exact H. Qed.
Lemma wr_old lo hi k b g l : old_key lo k -> skeys_in lo hi g ->
  wr k b (g ++ l) = match wr k b l with Some l' => Some (g ++ l') | None => None end.
Proof.
  intros Hk. induction g as [|[k' s] g IH]; intros H; [cbn; destruct (wr k b l); reflexivity|].
  inversion H as [|? ? H1 H2]; subst. pose proof (skeys_neq _ _ _ _ Hk H1) as E. cbn in *.
  rewrite E, IH by assumption. destruct (wr k b l); reflexivity.
Qed.
Lemma writable_old lo hi k g l : old_key lo k -> skeys_in lo hi g -> writable k l -> writable k (g ++ l).
Proof. intros Hk Hg H. unfold writable. erewrite wr_old by eassumption. rewrite H. reflexivity. Qed.
Lemma sink_old lo hi k g l : old_key lo k -> skeys_in lo hi g -> sink_of k (g ++ l) = sink_of k l.
Proof.
  intros Hk. induction g as [|[k' s] g IH]; intros H; [reflexivity|].
  inversion H as [|? ? H1 H2]; subst. pose proof (skeys_neq _ _ _ _ Hk H1) as E. cbn in *. rewrite E. auto.
Qed.
Lemma finish_old w lo hi k g l : old_key lo k -> skeys_in lo hi g ->
  finish w k (g ++ l) = let! l' := finish w k l in Ok (g ++ l').
Proof.
  intros Hk. induction g as [|[k' s] g IH]; intros H; [cbn; destruct (finish w k l); reflexivity|].
  inversion H as [|? ? H1 H2]; subst. pose proof (skeys_neq _ _ _ _ Hk H1) as E. cbn in *.
  rewrite E, IH by assumption. destruct (finish w k l); reflexivity.
Qed.

(** ** References *)
Lemma escan_seq m : forall l, (fix seq (l : list einstr) (m : rmap) : rmap := match l with [] => m | i :: l => seq l (escan i m) end) l m = escans l m.
Proof. intros l. reflexivity. Qed.
Lemma escans_app a b m : escans (a ++ b) m = escans b (escans a m).
Proof. revert m. induction a as [|i a IH]; intros m; cbn; [reflexivity|apply IH]. Qed.

(** Names in [A] mean the same for the code and for the reference. *)
Definition einv (hi : nat) (m : rmap) (rg : regs) (en : env) (A : string -> Prop) : Prop :=
  Forall (fun kv => (snd kv < hi)%nat) m
  /\ forall n, A n -> lookup n en = match lookup n m with Some r => assoc r rg | None => None end.
Lemma einv_ext hi hi' m rg en A new : einv hi m rg en A -> keys_in hi hi' new -> (hi <= hi')%nat -> einv hi' m (new ++ rg) en A.
Proof.
  intros (B & C) K L. split.
  - eapply Forall_impl; [|exact B]. cbn. intros. lia.
  - intros n Hn. rewrite (C n Hn). destruct (lookup n m) as [r|] eqn:E; [|reflexivity].
    apply lookup_some_in in E. rewrite Forall_forall in B. apply B in E. cbn in E.
    rewrite assoc_app, (assoc_none hi hi' r new K) by lia. reflexivity.
Qed.
Lemma einv_cons r hi m rg en A v : einv r m rg en A -> (r < hi)%nat -> einv hi m ((r, v) :: rg) en A.
Proof. intros H L. apply (einv_ext r hi m rg en A [(r, v)]); [assumption| |lia]. constructor; [cbn; lia|constructor]. Qed.
Lemma einv_mono hi hi' m rg en A : einv hi m rg en A -> (hi <= hi')%nat -> einv hi' m rg en A.
Proof. intros H L. apply (einv_ext hi hi' m rg en A []); [assumption|constructor|assumption]. Qed.
Lemma einv_far hi r m rg en A v : einv hi m rg en A -> (hi <= r)%nat -> einv hi m ((r, v) :: rg) en A.
Proof.
  intros (B & C) L. split; [assumption|]. intros n Hn. rewrite (C n Hn). destruct (lookup n m) as [q|] eqn:E; [|reflexivity].
  apply lookup_some_in in E. rewrite Forall_forall in B. apply B in E. cbn in *. destruct (Nat.eqb_spec q r); [lia|reflexivity].
Qed.
Lemma einv_sub hi m rg en (A B : string -> Prop) : einv hi m rg en A -> (forall n, B n -> A n) -> einv hi m rg en B.
Proof. intros (H2 & H3) H. split; [assumption|]. auto. Qed.
(** Both sides give a name the same value. *)
Lemma einv_set hi m rg en A n r v : einv hi m rg en A -> assoc r rg = Some v -> (r < hi)%nat ->
  einv hi ((n, r) :: m) rg ((n, v) :: en) (fun x => A x \/ x = n).
Proof.
  intros (H2 & H3) E L. split; [constructor; assumption|].
  intros x Hx. rewrite !lookup_cons. destruct (String.eqb_spec n x) as [->|Hn]; [congruence|].
  destruct Hx as [Hx|Hx]; [auto|congruence].
Qed.
(** The code defines names the reference does not. *)
Lemma einv_leak hi m rg en A leak : einv hi m rg en A -> Forall (fun nr => (snd nr < hi)%nat) leak ->
  (forall n, In n (map fst leak) -> ~ A n) -> einv hi (leak ++ m) rg en A.
Proof.
  intros (H2 & H3) F H. split; [apply Forall_app; auto|].
  intros n Hn. rewrite lookup_app. destruct (lookup n leak) as [r|] eqn:E; [|auto].
  exfalso. apply lookup_some_in in E. eapply H; [|exact Hn]. apply (in_map fst) in E. exact E.
Qed.
Lemma assoc_old hi hi' src v (new rg : regs) : (src < hi)%nat -> assoc src rg = Some v -> keys_in hi hi' new -> assoc src (new ++ rg) = Some v.
Proof. intros L E K. rewrite assoc_app, (assoc_none _ _ src new K) by lia. assumption. Qed.

Section Enc.
  Variable w : world.
  Variable p : program.
  Variable rf : nat.
  Variable inputs : string -> option val.
  Variable rec : string -> list val -> val -> res ioerr (list Z).
  Variable srec : string -> list val -> val -> res ioerr (list Z * val).
  Hypothesis Hrec : forall n vs v, rec n vs v = let! (b, _) := srec n vs v in Ok b.

  Notation eseq := (eseq w inputs rec).
  Notation erun := (erun w inputs rec).
  Notation ev := (ev w inputs).

  Lemma eseq_app m a b st :
    eseq m (a ++ b) st = let! o := eseq m a st in match o with ENext st => eseq (escans a m) b st | EBrk st => Ok (EBrk st) end.
  Proof.
    revert m st. induction a as [|i a IH]; intros m st; [reflexivity|].
    cbn [app Encode.eseq escans]. destruct (erun m i st) as [[st'|st']| | |]; cbn [bind]; try reflexivity. apply IH.
  Qed.
  Lemma eseq_one m i st : eseq m [i] st = erun m i st.
  Proof. cbn. destruct (erun m i st) as [[|]| | |]; reflexivity. Qed.
  Lemma eseq_cons m i l st :
    eseq m (i :: l) st = let! o := erun m i st in match o with ENext st => eseq (escan i m) l st | EBrk st => Ok (EBrk st) end.
  Proof. reflexivity. Qed.

  Lemma eval_einv hi m rg en A e : einv hi m rg en A -> (forall n, In n (fv e) -> A n) ->
    eval w inputs (fun n => match lookup n m with Some r => assoc r rg | None => None end) e = ev en e.
  Proof. intros (_ & C) H. apply eval_on. intros n Hn. symmetry. auto. Qed.

  (** ** What a piece of generated code has to do *)

  (** [code], started in [st], behaves as the reference result [r] says: it writes the
      bytes of [r] to [tgt] in the sinks [base] and adds registers and sinks with
      numbers between [lo] and [hi]. *)
  Definition esim {A} (code : list einstr) (tgt : option nat) (lo hi : nat) (m : rmap) (st : est) (base : sinks)
      (r : res ioerr (list Z * A)) (Q : A -> regs -> Prop) : Prop :=
    match r with
    | Ok (b, a) =>
        exists new g base', keys_in lo hi new /\ skeys_in lo hi g /\ wr tgt b base = Some base'
          /\ eseq m code st = Ok (ENext {| es_regs := new ++ es_regs st; es_snk := g ++ base' |}) /\ Q a new
    | Err e => eseq m code st = Err e
    | Panic => eseq m code st = Panic
    | Hang => eseq m code st = Hang
    end.

  Lemma esim_weaken {A} code t lo hi lo' hi' m st base (r : res ioerr (list Z * A)) (Q Q' : A -> regs -> Prop) :
    esim code t lo hi m st base r Q -> (lo' <= lo)%nat -> (hi <= hi')%nat ->
    (forall a new, keys_in lo hi new -> Q a new -> Q' a new) -> esim code t lo' hi' m st base r Q'.
  Proof.
    unfold esim. destruct r as [[b a]| | |]; auto. intros (new & g & base' & H1 & H2 & H3 & H4 & H5) L1 L2 HQ.
    exists new, g, base'. split; [eapply keys_in_weaken; eauto|]. split; [eapply skeys_in_weaken; eauto|]. auto.
  Qed.
  Lemma esim_map {A B} (h : A -> B) code t lo hi m st base (r : res ioerr (list Z * A)) (Q : A -> regs -> Prop) (Q' : B -> regs -> Prop) :
    esim code t lo hi m st base r Q -> (forall a new, Q a new -> Q' (h a) new) ->
    esim code t lo hi m st base (let! (b, a) := r in Ok (b, h a)) Q'.
  Proof.
    unfold esim. destruct r as [[b a]| | |]; cbn [bind]; auto. intros (new & g & base' & H1 & H2 & H3 & H4 & H5) HQ.
    exists new, g, base'. auto 6.
  Qed.
  (** Code run after something that only adds registers. *)
  Lemma esim_after {A} pre new0 code t lo mid hi m st base (r : res ioerr (list Z * A)) (Q Q' : A -> regs -> Prop) :
    eseq m pre st = Ok (ENext {| es_regs := new0 ++ es_regs st; es_snk := es_snk st |}) ->
    keys_in lo mid new0 -> (lo <= mid)%nat -> (mid <= hi)%nat ->
    esim code t mid hi (escans pre m) {| es_regs := new0 ++ es_regs st; es_snk := es_snk st |} base r Q ->
    (forall a new, keys_in mid hi new -> Q a new -> Q' a (new ++ new0)) ->
    esim (pre ++ code) t lo hi m st base r Q'.
  Proof.
    intros E K L1 L2 H HQ. unfold esim in *. rewrite !eseq_app, !E. cbn [bind].
    destruct r as [[b a]| | |]; try exact H.
    destruct H as (new & g & base' & H1 & H2 & H3 & H4 & H5). exists (new ++ new0), g, base'.
    split; [apply keys_in_app; eapply keys_in_weaken; eauto; lia|]. split; [eapply skeys_in_weaken; eauto; lia|].
    split; [assumption|]. cbn [es_regs] in H4. rewrite H4, <- app_assoc. split; [reflexivity|]. apply HQ; assumption.
  Qed.
  (** Two pieces that write one after the other. *)
  Lemma esim_seq {A B} code1 code2 t lo mid hi m st base (r1 : res ioerr (list Z * A)) (f : A -> res ioerr (list Z * B))
      (Q1 : A -> regs -> Prop) (Q2 : B -> regs -> Prop) :
    old_key lo t -> (lo <= mid)%nat -> (mid <= hi)%nat ->
    esim code1 t lo mid m st base r1 Q1 ->
    (forall a new g base1, Q1 a new -> keys_in lo mid new -> skeys_in lo mid g -> writable t base1 ->
       List.length base1 = List.length base ->
       esim code2 t mid hi (escans code1 m) {| es_regs := new ++ es_regs st; es_snk := g ++ base1 |} (g ++ base1) (f a)
         (fun b new2 => keys_in mid hi new2 -> Q2 b (new2 ++ new))) ->
    esim (code1 ++ code2) t lo hi m st base (let! (b1, a) := r1 in let! (b2, a2) := f a in Ok (b1 ++ b2, a2)) Q2.
  Proof.
    intros Ho L1 L2 H1 H2. unfold esim in *. rewrite !eseq_app.
    destruct r1 as [[b1 a]| | |]; cbn [bind]; try (rewrite H1; reflexivity).
    destruct H1 as (new & g & base1 & K & G & W & E & HQ). rewrite E. cbn [bind].
    specialize (H2 a new g base1 HQ K G (wr_writable _ _ _ _ W) (wr_length _ _ _ _ W)).
    destruct (f a) as [[b2 a2]| | |]; cbn [bind]; try exact H2.
    destruct H2 as (new2 & g2 & base2 & K2 & G2 & W2 & E2 & HQ2).
    rewrite (wr_old lo mid t b2 g base1 Ho G) in W2. destruct (wr t b2 base1) as [base3|] eqn:W3; [|discriminate]. injection W2 as <-.
    exists (new2 ++ new), (g2 ++ g), base3.
    split; [apply keys_in_app; eapply keys_in_weaken; eauto; lia|]. split; [apply skeys_in_app; eapply skeys_in_weaken; eauto; lia|].
    split; [rewrite <- (wr_app _ _ _ _ _ W); exact W3|].
    cbn [es_regs] in E2. rewrite E2, <- !app_assoc. split; [reflexivity|]. apply HQ2. assumption.
  Qed.

  (** *** Expressions *)
  Lemma efresh_spec c is r c' : efresh c = Some (is, r, c') ->
    is = [] /\ r = ec_rc c /\ ec_rc c' = S (ec_rc c) /\ ec_resolved c' = ec_resolved c /\ ec_pending c' = ec_pending c.
  Proof. intros H. cbv in H. injection H as <- <- <-. auto. Qed.
  Lemma etell_spec (i : einstr) (c : ectx) is u c' : tell i c = Some (is, u, c') -> is = [i] /\ c' = c.
  Proof. intros H. cbv in H. injection H as <- <- <-. auto. Qed.
  Lemma eret_spec {A} (a : A) (c : ectx) (is : list einstr) b c' : gret a c = Some (is, b, c') -> is = [] /\ b = a /\ c' = c.
  Proof. intros H. cbv in H. injection H as <- <- <-. auto. Qed.
  Ltac ei H x c1 G := let i1 := fresh "i" in let i2 := fresh "i" in
    apply gbind_some in H as (i1 & x & c1 & i2 & H & G & ->).
  Ltac ein H x c1 G a b := apply gbind_some in H as (a & x & c1 & b & H & G & ->).
  Ltac etell H := apply etell_spec in H as (-> & ->).
  Ltac ert H := apply eret_spec in H as (-> & -> & ->).

  Lemma eeval_spec e c is r c' : eeval e c = Some (is, r, c') ->
    is = [NEval r e] /\ r = ec_rc c /\ ec_rc c' = S (ec_rc c) /\ ec_resolved c' = ec_resolved c /\ ec_pending c' = ec_pending c.
  Proof. intros H. cbv in H. injection H as <- <- <-. auto. Qed.
  Lemma eeval_run e m r st en hi A : einv hi m (es_regs st) en A -> (forall n, In n (fv e) -> A n) ->
    eseq m [NEval r e] st = let! v := ev en e in Ok (ENext (elet r v st)).
  Proof. intros H HA. rewrite eseq_one. cbn. rewrite (eval_einv hi m _ en A) by assumption. reflexivity. Qed.

  Lemma esim_eval {B} e m r hi en A code t st base (f : val -> res ioerr (list Z * B)) (Q Q' : B -> regs -> Prop) :
    einv r m (es_regs st) en A -> (forall n, In n (fv e) -> A n) -> (r < hi)%nat ->
    (forall v, esim code t (S r) hi m {| es_regs := (r, v) :: es_regs st; es_snk := es_snk st |} base (f v) Q) ->
    (forall v a new, keys_in (S r) hi new -> Q a new -> Q' a (new ++ [(r, v)])) ->
    esim (NEval r e :: code) t r hi m st base (let! v := ev en e in f v) Q'.
  Proof.
    intros HI HA L H HQ. change (NEval r e :: code) with ([NEval r e] ++ code).
    destruct (ev en e) as [v| | |] eqn:E; cbn [bind].
    2-4: unfold esim; rewrite eseq_app, (eeval_run e m r st en r A HI HA), E; reflexivity.
    eapply (esim_after [NEval r e] [(r, v)] code t r (S r) hi).
    - rewrite (eeval_run e m r st en r A HI HA), E. reflexivity.
    - constructor; [cbn; lia|constructor].
    - lia.
    - lia.
    - apply H.
    - intros. eapply HQ; eauto.
  Qed.

  Lemma eevals_spec es : forall c is rs c', eevals es c = Some (is, rs, c') ->
    (ec_rc c <= ec_rc c')%nat /\ ec_resolved c' = ec_resolved c /\ ec_pending c' = ec_pending c /\ (forall m, escans is m = m) /\
    forall m st en A, einv (ec_rc c) m (es_regs st) en A -> (forall n, In n (fvs es) -> A n) ->
      match mapM (ev en) es with
      | Ok vs => exists new, keys_in (ec_rc c) (ec_rc c') new
          /\ eseq m is st = Ok (ENext {| es_regs := new ++ es_regs st; es_snk := es_snk st |})
          /\ mapM (fun r => of_some (assoc r (new ++ es_regs st))) rs = Ok vs
      | Err e => eseq m is st = Err e | Panic => eseq m is st = Panic | Hang => eseq m is st = Hang
      end.
  Proof.
    induction es as [|e es IH]; intros c is rs c' H; cbn [eevals] in H.
    - ert H. split; [lia|]. do 2 (split; [reflexivity|]). split; [reflexivity|]. intros m st en A _ _. cbn.
      exists []. split; [constructor|]. split; [destruct st; reflexivity|reflexivity].
    - ei H r c1 G. ei G rs' c2 G1. ert G1. rewrite app_nil_r.
      apply eeval_spec in H as (-> & -> & E1 & E2 & E3).
      apply IH in G as (L & M1 & M2 & Sc & R). rewrite E1, E2, E3 in *.
      split; [lia|]. do 2 (split; [assumption|]). split; [intros m; rewrite escans_app; apply Sc|].
      intros m st en A HI HA. cbn [mapM].
      assert (HA1 : forall n, In n (fv e) -> A n) by (intros n Hn; apply HA; cbn; apply in_app_iff; auto).
      assert (HA2 : forall n, In n (fvs es) -> A n) by (intros n Hn; apply HA; cbn; apply in_app_iff; auto).
      rewrite eseq_app, (eeval_run e _ _ st en _ A HI HA1).
      destruct (ev en e) as [v| | |] eqn:Ev; cbn [bind]; try reflexivity.
      specialize (R m (elet (ec_rc c) v st) en A (einv_cons _ (S (ec_rc c)) _ _ _ _ v HI ltac:(lia)) HA2).
      destruct (mapM (ev en) es) as [vs| | |]; cbn [bind]; try exact R.
      destruct R as (new & K & R1 & R2). exists (new ++ [(ec_rc c, v)]).
      cbn [escans escan]. rewrite R1. cbn [elet es_regs es_snk] in *. rewrite <- !app_assoc. cbn [app]. split; [|split].
      + apply keys_in_app; [eapply keys_in_weaken; [exact K| |]; lia|]. constructor; [cbn; lia|constructor].
      + reflexivity.
      + cbn [mapM]. rewrite R2. rewrite assoc_app, (assoc_none _ _ _ new K) by lia.
        cbn [assoc]. rewrite Nat.eqb_refl. reflexivity.
  Qed.
  Lemma mapM_ereg rs st : mapM (fun a => ereg a st) rs = mapM (fun r => of_some (assoc r (es_regs st))) rs.
  Proof. reflexivity. Qed.

  (** *** Writing *)
  Lemma esim_write {A} i (x : res ioerr (list Z)) (a : A) t lo hi m st :
    erun m i st = (let! b := x in let! st := ewrite t b st in Ok (ENext st)) ->
    writable t (es_snk st) ->
    esim [i] t lo hi m st (es_snk st) (let! b := x in Ok (b, a)) (fun a' new => a' = a /\ new = []).
  Proof.
    intros E W. unfold esim. rewrite !eseq_one, !E. destruct x as [b| | |]; cbn [bind]; try reflexivity.
    destruct (writable_wr _ _ b W) as (l' & Hl). unfold ewrite. rewrite Hl. cbn [of_some bind].
    exists [], [], l'. split; [constructor|]. split; [constructor|]. split; [reflexivity|]. auto.
  Qed.

  (** *** Types *)
  Notation se_type := (se_type w p rf inputs None srec).
  Notation se_arr := (se_arr w p rf inputs None).
  Definition any {A} : A -> regs -> Prop := fun _ _ => True.
  Definition etspec (g : target -> nat -> egen unit) (vs : list string) (f : env -> val -> res ioerr (list Z * val)) : Prop :=
    forall tgt src c is u c', g tgt src c = Some (is, u, c') -> old_key (ec_rc c) (key tgt) -> (src < ec_rc c)%nat ->
      (ec_rc c <= ec_rc c')%nat /\ ec_resolved c' = ec_resolved c /\ ec_pending c' = ec_pending c /\ (forall m, escans is m = m) /\
      forall m st en A v, einv (ec_rc c) m (es_regs st) en A -> (forall n, In n vs -> A n) -> assoc src (es_regs st) = Some v ->
        writable (key tgt) (es_snk st) ->
        esim is (key tgt) (ec_rc c) (ec_rc c') m st (es_snk st) (f en v) any.

  Section Loop.
    Variable body : list einstr.
    Variables (idx item src : nat) (isr : list einstr) (lo hi : nat) (t : option nat).
    Variables (m : rmap) (en : env) (A : string -> Prop).
    Variable f : val -> res ioerr (list Z * val).
    Hypothesis Hbody : body = NGetField item src [FIdx idx] :: isr.
    Hypothesis Hord : (src < lo)%nat /\ (lo <= idx)%nat /\ (idx < item)%nat /\ (S item <= hi)%nat.
    Hypothesis Hsim : forall st v, einv (S item) m (es_regs st) en A -> assoc item (es_regs st) = Some v -> writable t (es_snk st) ->
      esim isr t (S item) hi m st (es_snk st) (f v) any.
    Variable s : scalar.
    Definition iter_ (i : Z) (st : est) : res ioerr eout :=
      let! o := eseq m body (elet idx (VInt s i) st) in
      match o with ENext st' => Ok (ENext (eleave st st')) | EBrk st' => Ok (EBrk st') end.

    Lemma loop_ok n : forall i st l, einv lo m (es_regs st) en A -> assoc src (es_regs st) = Some (VArr l) -> 0 <= i ->
      writable t (es_snk st) ->
      match se_times f n (skipn (Z.to_nat i) l) with
      | Ok xs => exists snk', wr t (concat (map fst xs)) (es_snk st) = Some snk' /\
          for_range n i iter_ st = Ok (ENext {| es_regs := es_regs st; es_snk := snk' |})
      | Err e => for_range n i iter_ st = Err e | Panic => for_range n i iter_ st = Panic | Hang => for_range n i iter_ st = Hang
      end.
    Proof.
      induction n as [|n IH]; intros i st l HI Hs Hi HW; cbn [se_times for_range].
      - cbn. exists (es_snk st). split; [exact HW|]. destruct st; reflexivity.
      - assert (Hget : iter_ i st = match nth_error l (Z.to_nat i) with
          | None => Panic
          | Some v => let! o := eseq m isr (elet item v (elet idx (VInt s i) st)) in
                      match o with ENext st' => Ok (ENext (eleave st st')) | EBrk st' => Ok (EBrk st') end
          end).
        { unfold iter_. rewrite Hbody, eseq_cons. cbn [Encode.erun get_ops escan]. unfold ereg. cbn [elet es_regs assoc].
          assert (Hne : src <> idx) by lia.
          destruct (Nat.eqb_spec src idx); [contradiction|]. rewrite Hs. cbn [of_some bind]. rewrite Nat.eqb_refl. cbn [of_some bind].
          destruct (nth_error l (Z.to_nat i)) as [v|]; reflexivity. }
        rewrite Hget. clear Hget.
        destruct (nth_error l (Z.to_nat i)) as [v|] eqn:En.
        + assert (Hk : skipn (Z.to_nat i) l = v :: skipn (S (Z.to_nat i)) l).
          { clear - En. revert En. generalize (Z.to_nat i). intros k. revert l. induction k as [|k IH]; intros [|x l] E; try discriminate.
            - injection E as ->. reflexivity.
            - apply IH. exact E. }
          rewrite Hk. cbn [bind].
          assert (HI2 : einv (S item) m (es_regs (elet item v (elet idx (VInt s i) st))) en A).
          { apply einv_cons; [|lia]. apply einv_mono with (hi := S idx); [|lia]. apply einv_cons; [|lia]. eapply einv_mono; [eassumption|lia]. }
          pose proof (Hsim (elet item v (elet idx (VInt s i) st)) v HI2 ltac:(cbn; rewrite Nat.eqb_refl; reflexivity) HW) as S1.
          unfold esim in S1. destruct (f v) as [[b v']| | |]; cbn [bind]; try (rewrite S1; reflexivity).
          destruct S1 as (new & g & base' & K & G & W & E & _). rewrite E. cbn [bind].
          assert (El : eleave st {| es_regs := new ++ es_regs (elet item v (elet idx (VInt s i) st)); es_snk := g ++ base' |}
            = {| es_regs := es_regs st; es_snk := base' |}).
          { unfold eleave. cbn [es_regs es_snk elet] in *. rewrite (truncate_app g base') by (apply (wr_length _ _ _ _ W)).
            replace (new ++ (item, v) :: (idx, VInt s i) :: es_regs st) with ((new ++ [(item, v); (idx, VInt s i)]) ++ es_regs st)
              by (rewrite <- app_assoc; reflexivity).
            rewrite truncate_app by reflexivity. reflexivity. }
          rewrite El. clear El.
          specialize (IH (i + 1) {| es_regs := es_regs st; es_snk := base' |} l HI Hs ltac:(lia) (wr_writable _ _ _ _ W)).
          replace (Z.to_nat (i + 1)) with (S (Z.to_nat i)) in IH by lia.
          destruct (se_times f n (skipn (S (Z.to_nat i)) l)) as [xs| | |]; cbn [bind]; try exact IH.
          destruct IH as (snk' & W2 & E2). exists snk'. split; [|exact E2]. cbn [map concat fst].
          rewrite <- (wr_app _ _ _ _ _ W). exact W2.
        + assert (Hk : skipn (Z.to_nat i) l = []) by (apply skipn_all2; apply nth_error_None; assumption).
          rewrite Hk. reflexivity.
    Qed.

    Lemma eloop_ok lo' hi' z stop st l : einv lo m (es_regs st) en A -> assoc stop (es_regs st) = Some (VInt s z) ->
      assoc src (es_regs st) = Some (VArr l) -> writable t (es_snk st) ->
      esim [NLoop idx stop body] t lo' hi' m st (es_snk st)
        (let! xs := se_times f (Z.to_nat z) l in Ok (concat (map fst xs), VArr (map snd xs))) (fun _ new => new = []).
    Proof.
      intros HI Hz Hs HW. pose proof (loop_ok (Z.to_nat z) 0 st l HI Hs ltac:(lia) HW) as H. change (Z.to_nat 0) with O in H. cbn [skipn] in H.
      assert (E : erun m (NLoop idx stop body) st = for_range (Z.to_nat z) 0 iter_ st).
      { cbn [Encode.erun]. unfold ereg. rewrite Hz. reflexivity. }
      unfold esim. rewrite !eseq_one, !E. destruct (se_times f (Z.to_nat z) l) as [xs| | |]; cbn [bind]; try exact H.
      destruct H as (snk' & W & E'). exists [], [], snk'. split; [constructor|]. split; [constructor|]. auto.
    Qed.
    (** The source is not an array. *)
    Lemma eloop_bad z stop st v : einv lo m (es_regs st) en A -> assoc stop (es_regs st) = Some (VInt s z) ->
      assoc src (es_regs st) = Some v -> (forall l, v <> VArr l) -> Z.to_nat z <> O ->
      eseq m [NLoop idx stop body] st = Panic.
    Proof.
      intros HI Hz Hs Hv Hn. rewrite eseq_one. cbn [Encode.erun]. unfold ereg at 1. rewrite Hz. cbn [of_some bind].
      destruct (Z.to_nat z) as [|n]; [contradiction|]. cbn [for_range].
      fold (eseq m body (elet idx (VInt s 0) st)).
      rewrite Hbody, eseq_cons. cbn [Encode.erun get_ops]. unfold ereg at 1. cbn [elet es_regs assoc].
      assert (Hne : src <> idx) by lia.
      destruct (Nat.eqb_spec src idx); [contradiction|]. rewrite Hs. cbn [of_some bind]. unfold ereg. cbn [elet es_regs assoc].
      rewrite Nat.eqb_refl. cbn [of_some bind]. destruct v; try reflexivity. exfalso. eapply Hv. reflexivity.
    Qed.
  End Loop.
  Lemma se_times_all f vs : se_times f (List.length vs) vs = mapM f vs.
  Proof. induction vs as [|v vs IH]; cbn; [reflexivity|]. rewrite IH. reflexivity. Qed.

  (** Arrays written in one go. *)
  Definition bulk (enc1 : val -> res ioerr (list Z)) (len : option val) (v : val) : res ioerr (list Z * val) :=
    let! vs := arr_of v in
    let! _ := match len with
              | None => Ok tt
              | Some nv => let! z := of_some (vint nv) in
                           if (z mod 2 ^ 64 =? Z.of_nat (List.length vs)) then Ok tt else Panic
              end in
    let! bs := mapM enc1 vs in Ok (concat bs, v).
  Lemma bulk_ok i enc1 t src len lv v lo hi m st :
    erun m i st = (let! v := ereg src st in
      match v with
      | VArr vs =>
          let! _ := check_len len (List.length vs) st in
          let! bs := mapM enc1 vs in
          let! st := ewrite t (concat bs) st in Ok (ENext st)
      | _ => Panic
      end) ->
    assoc src (es_regs st) = Some v ->
    match len, lv with None, None => True | Some r, Some nv => assoc r (es_regs st) = Some nv | _, _ => False end ->
    writable t (es_snk st) ->
    esim [i] t lo hi m st (es_snk st) (bulk enc1 lv v) any.
  Proof.
    intros E Hs Hl W.
    assert (X : bulk enc1 lv v = let! b := (let! vs := arr_of v in
      let! _ := match lv with
              | None => Ok tt
              | Some nv => let! z := of_some (vint nv) in
                           if (z mod 2 ^ 64 =? Z.of_nat (List.length vs)) then Ok tt else Panic
              end in let! bs := mapM enc1 vs in Ok (concat bs)) in Ok (b, v)).
    { unfold bulk. rewrite !bind_assoc. apply bind_ext. intros vs. rewrite bind_assoc. apply bind_ext. intros _.
      rewrite bind_assoc. reflexivity. }
    rewrite X. eapply esim_weaken; [apply esim_write; [|exact W]|apply le_n|apply le_n|intros; exact I].
    rewrite E. unfold ereg. rewrite Hs. cbn [of_some bind]. destruct v; try reflexivity. cbn [arr_of bind].
    assert (Ec : check_len len (List.length l) st = match lv with
              | None => Ok tt
              | Some nv => let! z := of_some (vint nv) in
                           if (z mod 2 ^ 64 =? Z.of_nat (List.length l)) then Ok tt else Panic
              end).
    { destruct len as [r|], lv as [nv|]; try contradiction; [|reflexivity]. cbn [check_len]. unfold ereg. rewrite Hl. cbn [of_some bind].
      destruct nv; reflexivity. }
    rewrite Ec. rewrite !bind_assoc. apply bind_ext. intros _. reflexivity.
  Qed.

  Lemma sub_app_l {A} (P : A -> Prop) a b : (forall n, In n (a ++ b) -> P n) -> (forall n, In n a -> P n).
  Proof. intros H n Hn. apply H. apply in_app_iff. auto. Qed.
  Lemma sub_app_r {A} (P : A -> Prop) a b : (forall n, In n (a ++ b) -> P n) -> (forall n, In n b -> P n).
  Proof. intros H n Hn. apply H. apply in_app_iff. auto. Qed.

  Lemma loop_block el recg f tgt src c body idx c' : etspec recg (ty_fv el) f -> old_key (ec_rc c) (key tgt) ->
    (do idx <- efresh; do item <- efresh; do _ <- tell (NGetField item src [FIdx idx]); do _ <- recg tgt item; gret idx) c = Some (body, idx, c') ->
    idx = ec_rc c /\ (S (S (ec_rc c)) <= ec_rc c')%nat /\ ec_resolved c' = ec_resolved c /\ ec_pending c' = ec_pending c /\
    exists isr, body = NGetField (S (ec_rc c)) src [FIdx idx] :: isr /\ (forall m, escans body m = m) /\
      forall m en (A : string -> Prop), (forall n, In n (ty_fv el) -> A n) -> forall st v, einv (S (S (ec_rc c))) m (es_regs st) en A ->
        assoc (S (ec_rc c)) (es_regs st) = Some v -> writable (key tgt) (es_snk st) ->
        esim isr (key tgt) (S (S (ec_rc c))) (ec_rc c') m st (es_snk st) (f en v) any.
  Proof.
    intros Hel Ho H.
    ei H ix c7 G. apply efresh_spec in H as (-> & -> & F1 & F2 & F3).
    ei G it c8 G1. apply efresh_spec in G as (-> & -> & F4 & F5 & F6).
    ei G1 t9 c9 G. etell G1. ei G t10 c10 G1. ert G1. rewrite app_nil_r. cbn [app].
    destruct (Hel _ _ _ _ _ _ G (old_key_le _ (ec_rc c8) _ Ho ltac:(lia)) ltac:(lia)) as (L1 & M1 & M2 & S1 & R1).
    rewrite F1 in *. rewrite F4 in *. split; [reflexivity|]. split; [lia|]. split; [congruence|]. split; [congruence|].
    eexists. split; [reflexivity|]. split; [intros m; cbn; apply S1|].
    intros m en A HA st v HI Hv HW. apply R1 with (A := A); assumption.
  Qed.

  (** The loop over all elements. *)
  Lemma getlen_loop el f tgt src lo item isr hi r m st en (A : string -> Prop) v : old_key lo (key tgt) -> (src < lo)%nat ->
    (S (S lo) <= hi)%nat -> (hi <= r)%nat ->
    (forall st v, einv (S (S lo)) m (es_regs st) en A -> assoc (S lo) (es_regs st) = Some v -> writable (key tgt) (es_snk st) ->
        esim isr (key tgt) (S (S lo)) hi m st (es_snk st) (f v) any) ->
    item = S lo -> einv lo m (es_regs st) en A -> (forall n, In n (ty_fv el) -> A n) -> assoc src (es_regs st) = Some v ->
    writable (key tgt) (es_snk st) ->
    esim [NGetLen r src; NLoop lo r (NGetField item src [FIdx lo] :: isr)] (key tgt) lo (S r) m st (es_snk st)
      (let! vs := arr_of v in let! xs := mapM f vs in Ok (concat (map fst xs), VArr (map snd xs))) any.
  Proof.
    intros Ho L1 L2 L3 Hsim -> HI HA Hs HW.
    assert (E : erun m (NGetLen r src) st = match v with VArr l => Ok (ENext (elet r (VInt U64 (Z.of_nat (List.length l))) st)) | _ => Panic end).
    { cbn [Encode.erun]. rewrite Hs. destruct v; reflexivity. }
    destruct v as [| | | | | | |l| | | | |]; cbn [arr_of bind]; try (unfold esim; rewrite eseq_cons, E; reflexivity).
    match goal with |- esim [?a; ?b] _ _ _ _ _ _ _ _ => change [a; b] with ([a] ++ [b]) end.
    set (n0 := VInt U64 (Z.of_nat (List.length l))) in *.
    eapply (esim_after [NGetLen r src] [(r, n0)] _ (key tgt) lo (S r) (S r)); [rewrite eseq_one; exact E| |lia|lia| |intros; exact I].
    { constructor; [cbn; lia|constructor]. }
    cbn [escans escan app]. rewrite <- se_times_all.
    replace (se_times f (List.length l) l) with (se_times f (Z.to_nat (Z.of_nat (List.length l))) l) by (f_equal; lia).
    eapply (esim_weaken _ _ (S r) (S r)) with (Q := fun _ new => new = []); [|lia|lia|intros; exact I].
    eapply (eloop_ok _ lo (S lo) src isr lo hi (key tgt) m en A f eq_refl ltac:(lia) Hsim U64 (S r) (S r) (Z.of_nat (List.length l)) r
      {| es_regs := (r, n0) :: es_regs st; es_snk := es_snk st |}); cbn [es_regs es_snk app].
    - apply einv_far; [assumption|lia].
    - cbn. rewrite Nat.eqb_refl. reflexivity.
    - cbn. destruct (Nat.eqb_spec src r); [lia|]. exact Hs.
    - exact HW.
  Qed.

  Lemma esim_panic {A} code t lo hi m st base Q : eseq m code st = Panic -> esim (A := A) code t lo hi m st base Panic Q.
  Proof. intros H. exact H. Qed.
  Lemma esim_eq {A} code t lo hi m st base (r r' : res ioerr (list Z * A)) Q : esim code t lo hi m st base r Q -> r = r' -> esim code t lo hi m st base r' Q.
  Proof. intros H <-. exact H. Qed.

  (** The fixed-length loop. *)
  Lemma fixed_loop f tgt src lo isr hi r m st en (A : string -> Prop) v nv : (src < lo)%nat ->
    (S (S lo) <= hi)%nat ->
    (forall st v, einv (S (S lo)) m (es_regs st) en A -> assoc (S lo) (es_regs st) = Some v -> writable (key tgt) (es_snk st) ->
        esim isr (key tgt) (S (S lo)) hi m st (es_snk st) (f v) any) ->
    einv lo m (es_regs st) en A -> assoc src (es_regs st) = Some v -> assoc r (es_regs st) = Some nv ->
    writable (key tgt) (es_snk st) ->
    esim [NLoop lo r (NGetField (S lo) src [FIdx lo] :: isr)] (key tgt) lo hi m st (es_snk st)
      (let! z := of_some (vint nv) in
       let! vs := (if (Z.to_nat z =? 0)%nat then Ok (match v with VArr l => l | _ => [] end) else arr_of v) in
       let! xs := se_times f (Z.to_nat z) vs in
       Ok (concat (map fst xs), VArr (map snd xs))) any.
  Proof.
    intros L1 L2 Hsim HI Hs Hr HW.
    destruct (vint nv) as [z|] eqn:Ev; cbn [of_some bind].
    2:{ apply esim_panic. rewrite eseq_one. cbn [Encode.erun]. unfold ereg. rewrite Hr. destruct nv; try reflexivity. discriminate. }
    destruct nv as [s z'| | | | | | | | | | | | ]; try discriminate. injection Ev as ->.
    destruct (Nat.eqb_spec (Z.to_nat z) 0) as [E0|E0]; cbn [bind].
    - rewrite E0. cbn [se_times bind]. unfold esim. exists [], [], (es_snk st). split; [constructor|]. split; [constructor|].
      split; [exact HW|]. split; [|exact I]. rewrite eseq_one. cbn [Encode.erun]. unfold ereg at 1. rewrite Hr. cbn [of_some bind].
      rewrite E0. destruct st; reflexivity.
    - destruct v as [| | | | | | |l| | | | |]; cbn [arr_of bind].
      8:{ eapply (esim_weaken _ _ lo hi) with (Q := fun _ new => new = []); [|lia|lia|intros; exact I].
          eapply (eloop_ok _ lo (S lo) src isr lo hi (key tgt) m en A f eq_refl ltac:(lia) Hsim s); eassumption. }
      all: apply esim_panic; eapply (eloop_bad _ lo (S lo) src isr lo hi m en A eq_refl ltac:(lia)); try eassumption; intros; discriminate.
  Qed.

  Lemma enc_array_ok el lc recg f : etspec recg (ty_fv el) f ->
    etspec (fun tgt src => enc_array p rf (recg tgt) el lc tgt src) (ty_fv (TArr el lc)) (fun en v => se_arr (f en) en el lc v).
  Proof.
    intros Hel tgt src c is u c' H Ho Hsrc. unfold enc_array in H. cbn [ty_fv]. destruct lc as [e| |e].
    - (* LFixed *)
      ei H term c1 G. ert H. ei G len c2 G1. ei G r c3 G2. ert G2.
      apply eeval_spec in G as (-> & -> & E1 & E2 & E3). rewrite app_nil_r. cbn [app].
      cbn [se_arr]. unfold Spec.se_arr.
      destruct (kind_of (resolved p rf el)) as [pr|d|] eqn:Ek.
      + etell G1. rewrite E1, E2, E3. split; [lia|]. split; [reflexivity|]. split; [reflexivity|]. split; [reflexivity|].
        intros m st en A v HI HA Hs HW. pose proof (sub_app_l _ _ _ HA) as HA1.
        destruct pr.
        * (* bool *)
          eapply esim_eval with (Q := any); [eassumption|exact HA1|lia| |intros; exact I].
          intros nv. apply esim_panic. reflexivity.
        * apply esim_eq with (r := let! nv := ev en e in bulk (prim_enc PF32) (Some nv) v).
          { eapply esim_eval with (Q := any); [eassumption|exact HA1|lia| |intros; exact I]. intros nv.
            eapply (bulk_ok _ (prim_enc PF32) (key tgt) src (Some (ec_rc c)) (Some nv) v _ _ m {| es_regs := _; es_snk := _ |}); cbn [es_regs es_snk]; [reflexivity| | |exact HW].
            - cbn. destruct (Nat.eqb_spec src (ec_rc c)); [lia|exact Hs].
            - cbn. rewrite Nat.eqb_refl. reflexivity. }
          apply bind_ext. intros nv. unfold bulk. apply bind_ext. intros vs. rewrite bind_assoc. apply bind_ext. intros z.
          destruct (_ =? _); reflexivity.
        * apply esim_eq with (r := let! nv := ev en e in bulk (prim_enc PF64) (Some nv) v).
          { eapply esim_eval with (Q := any); [eassumption|exact HA1|lia| |intros; exact I]. intros nv.
            eapply (bulk_ok _ (prim_enc PF64) (key tgt) src (Some (ec_rc c)) (Some nv) v _ _ m {| es_regs := _; es_snk := _ |}); cbn [es_regs es_snk]; [reflexivity| | |exact HW].
            - cbn. destruct (Nat.eqb_spec src (ec_rc c)); [lia|exact Hs].
            - cbn. rewrite Nat.eqb_refl. reflexivity. }
          apply bind_ext. intros nv. unfold bulk. apply bind_ext. intros vs. rewrite bind_assoc. apply bind_ext. intros z.
          destruct (_ =? _); reflexivity.
        * apply esim_eq with (r := let! nv := ev en e in bulk (prim_enc (PScalar e0)) (Some nv) v).
          { eapply esim_eval with (Q := any); [eassumption|exact HA1|lia| |intros; exact I]. intros nv.
            eapply (bulk_ok _ (prim_enc (PScalar e0)) (key tgt) src (Some (ec_rc c)) (Some nv) v _ _ m {| es_regs := _; es_snk := _ |}); cbn [es_regs es_snk]; [reflexivity| | |exact HW].
            - cbn. destruct (Nat.eqb_spec src (ec_rc c)); [lia|exact Hs].
            - cbn. rewrite Nat.eqb_refl. reflexivity. }
          apply bind_ext. intros nv. unfold bulk. apply bind_ext. intros vs. rewrite bind_assoc. apply bind_ext. intros z.
          destruct (_ =? _); reflexivity.
      + etell G1. rewrite E1, E2, E3. split; [lia|]. split; [reflexivity|]. split; [reflexivity|]. split; [reflexivity|].
        intros m st en A v HI HA Hs HW. pose proof (sub_app_l _ _ _ HA) as HA1.
        apply esim_eq with (r := let! nv := ev en e in bulk (repr_enc d) (Some nv) v).
        { eapply esim_eval with (Q := any); [eassumption|exact HA1|lia| |intros; exact I]. intros nv.
          eapply (bulk_ok _ (repr_enc d) (key tgt) src (Some (ec_rc c)) (Some nv) v _ _ m {| es_regs := _; es_snk := _ |}); cbn [es_regs es_snk]; [reflexivity| | |exact HW].
          - cbn. destruct (Nat.eqb_spec src (ec_rc c)); [lia|exact Hs].
          - cbn. rewrite Nat.eqb_refl. reflexivity. }
        apply bind_ext. intros nv. unfold bulk. apply bind_ext. intros vs. rewrite bind_assoc. apply bind_ext. intros z.
        destruct (_ =? _); reflexivity.
      + ei G1 bi c4 G2. destruct bi as [body idx]. ei G2 len c5 G3. ert G2. ei G3 u1 c6 G4. etell G3. ert G4.
        apply block_some in G1 as (b1 & i1 & G1 & Eq & ->). injection Eq as <- <-. cbn [app].
        apply (loop_block el recg f tgt src) in G1 as (-> & L2 & M1 & M2 & isr & -> & Sc & Hsim);
          [|assumption|eapply old_key_le; [exact Ho|lia]].
        rewrite E1 in *. split; [lia|]. split; [congruence|]. split; [congruence|].
        split; [intros m; cbn in *; apply Sc|].
        intros m st en A v HI HA Hs HW. pose proof (sub_app_l _ _ _ HA) as HA1. pose proof (sub_app_r _ _ _ HA) as HA2.
        eapply esim_eval with (Q := any); [eassumption|exact HA1|lia| |intros; exact I]. intros nv.
        eapply (fixed_loop (f en) tgt src (S (ec_rc c)) isr (ec_rc c4) (ec_rc c) m {| es_regs := _; es_snk := _ |} en A); cbn [es_regs es_snk]; try lia.
        * apply Hsim. exact HA2.
        * apply einv_cons; [assumption|lia].
        * cbn. destruct (Nat.eqb_spec src (ec_rc c)); [lia|exact Hs].
        * cbn. rewrite Nat.eqb_refl. reflexivity.
        * exact HW.
    - (* LRest *)
      ei H term c1 G. ert H. ei G len c2 G1. ert G. cbn [app]. cbn [se_arr]. unfold Spec.se_arr.
      destruct (kind_of (resolved p rf el)) as [pr|d|] eqn:Ek.
      + etell G1. split; [lia|]. split; [reflexivity|]. split; [reflexivity|]. split; [reflexivity|].
        intros m st en A v HI HA Hs HW.
        destruct pr.
        1: apply esim_panic; reflexivity.
        all: eapply (bulk_ok _ (prim_enc _) (key tgt) src None None v); [reflexivity|exact Hs|exact I|exact HW].
      + etell G1. split; [lia|]. split; [reflexivity|]. split; [reflexivity|]. split; [reflexivity|].
        intros m st en A v HI HA Hs HW.
        eapply (bulk_ok _ (repr_enc _) (key tgt) src None None v); [reflexivity|exact Hs|exact I|exact HW].
      + ei G1 bi c4 G2. destruct bi as [body idx].
        apply block_some in G1 as (b1 & i1 & G1 & Eq & ->). injection Eq as <- <-. cbn [app].
        apply (loop_block el recg f tgt src) in G1 as (-> & L2 & M1 & M2 & isr & -> & Sc & Hsim);
          [|assumption|eapply old_key_le; [exact Ho|lia]].
        ei G2 len c5 G3. ei G2 r c6 G4. ei G4 t1 c7 G5. ert G5. etell G4. apply efresh_spec in G2 as (-> & -> & F1 & F2 & F3).
        ei G3 t2 c8 G4. etell G3. ert G4. cbn [app].
        split; [lia|]. split; [congruence|]. split; [congruence|]. split; [intros m; cbn in *; apply Sc|].
        intros m st en A v HI HA Hs HW. rewrite F1.
        eapply (getlen_loop el (f en) tgt src (ec_rc c) (S (ec_rc c)) isr (ec_rc c4) (ec_rc c4) m st en A); try assumption; try lia; try reflexivity.
        apply Hsim. assumption.
    - (* LTerm *)
      ei H term c1 G. ei H r c0 G1. ert G1. apply eeval_spec in H as (-> & -> & E1 & E2 & E3).
      ei G len c2 G1. ert G. cbn [app]. cbn [se_arr]. unfold Spec.se_arr.
      ei G1 bi c4 G2. destruct bi as [body idx].
      apply block_some in G1 as (b1 & i1 & G1 & Eq & ->). injection Eq as <- <-. cbn [app].
      apply (loop_block el recg f tgt src) in G1 as (-> & L2 & M1 & M2 & isr & -> & Sc & Hsim);
        [|assumption|eapply old_key_le; [exact Ho|lia]].
      ei G2 len c5 G3. ei G2 r c6 G4. ei G4 t1 c7 G5. ert G5. etell G4. apply efresh_spec in G2 as (-> & -> & F1 & F2 & F3).
      ei G3 t2 c8 G4. etell G3. etell G4. cbn [app]. rewrite E1 in *.
      split; [lia|]. split; [congruence|]. split; [congruence|]. split; [intros m; cbn in *; apply Sc|].
      intros m st en A v HI HA Hs HW. pose proof (sub_app_l _ _ _ HA) as HA1. pose proof (sub_app_r _ _ _ HA) as HA2. rewrite F1.
      eapply esim_eval with (Q := any); [eassumption|exact HA1|lia| |intros; exact I]. intros nv.
      set (st1 := {| es_regs := (ec_rc c, nv) :: es_regs st; es_snk := es_snk st |}).
      assert (Hs1 : assoc src (es_regs st1) = Some v) by (cbn; destruct (Nat.eqb_spec src (ec_rc c)); [lia|exact Hs]).
      match goal with |- esim (?a :: ?b :: ?l) _ _ _ _ _ _ _ _ => change (a :: b :: l) with ([a; b] ++ l) end.
      apply esim_eq with (r := let! (b1, a) := (let! vs := arr_of v in let! xs := mapM (f en) vs in Ok (concat (map fst xs), VArr (map snd xs))) in
        let! (b2, a2) := (let! (b, x) := bulk (prim_enc (PScalar u8be)) None nv in Ok (b, a)) in Ok (b1 ++ b2, a2)).
      + eapply (esim_seq _ _ (key tgt) (S (ec_rc c)) (S (ec_rc c4)) (S (ec_rc c4)) m st1) with (Q1 := any).
        * eapply old_key_le; [exact Ho|lia].
        * lia.
        * lia.
        * eapply (getlen_loop el (f en) tgt src (S (ec_rc c)) (S (S (ec_rc c))) isr (ec_rc c4) (ec_rc c4) m st1 en A); try assumption; try lia; try reflexivity.
          -- eapply old_key_le; [exact Ho|lia].
          -- apply Hsim. assumption.
          -- apply einv_cons; [assumption|lia].
        * intros a new g base1 _ K Gk W Hl. eapply esim_map with (h := fun _ => a) (Q := any); [|intros; exact I].
          eapply (bulk_ok _ (prim_enc (PScalar u8be)) (key tgt) (ec_rc c) None None nv _ _ _ {| es_regs := _; es_snk := _ |}); cbn [es_regs es_snk]; [reflexivity| |exact I|].
          -- rewrite assoc_app, (assoc_none (S (ec_rc c)) _ _ new K) by lia. cbn. rewrite Nat.eqb_refl. reflexivity.
          -- eapply writable_old; [|exact Gk|exact W]. eapply old_key_le; [exact Ho|lia].
      + unfold bulk. rewrite !bind_assoc. apply bind_ext. intros vs. rewrite !bind_assoc. apply bind_ext. intros xs. cbn [bind].
        rewrite !bind_assoc. apply bind_ext. intros ts. cbn [bind]. rewrite !bind_assoc. apply bind_ext. intros bs. reflexivity.
  Qed.

  Lemma esim_evals {B} es c is rs c' hi m st en (A : string -> Prop) code t base (f : list val -> res ioerr (list Z * B)) (Q Q' : B -> regs -> Prop) :
    eevals es c = Some (is, rs, c') -> einv (ec_rc c) m (es_regs st) en A -> (forall n, In n (fvs es) -> A n) -> (ec_rc c' <= hi)%nat ->
    (forall vs new, keys_in (ec_rc c) (ec_rc c') new -> mapM (fun r => of_some (assoc r (new ++ es_regs st))) rs = Ok vs ->
       esim code t (ec_rc c') hi m {| es_regs := new ++ es_regs st; es_snk := es_snk st |} base (f vs) Q) ->
    (forall new0 a new, keys_in (ec_rc c') hi new -> keys_in (ec_rc c) (ec_rc c') new0 -> Q a new -> Q' a (new ++ new0)) ->
    esim (is ++ code) t (ec_rc c) hi m st base (let! vs := mapM (ev en) es in f vs) Q'.
  Proof.
    intros H HI HA L Hk HQ. apply eevals_spec in H as (L1 & M1 & M2 & Sc & R). specialize (R m st en A HI HA).
    destruct (mapM (ev en) es) as [vs| | |]; cbn [bind]; try (unfold esim; rewrite eseq_app, R; reflexivity).
    destruct R as (new & K & E & Em).
    eapply (esim_after is new code t (ec_rc c) (ec_rc c') hi); [exact E|exact K|assumption|assumption| |].
    - rewrite Sc. apply Hk; assumption.
    - intros a new' K' Hq. apply HQ; assumption.
  Qed.

  Lemma enc_type_ok t : etspec (fun tgt src => enc_type p rf t tgt src) (ty_fv t) (fun en v => se_type en t v).
  Proof.
    induction t using ty_ind'; intros tgt src c is u c' H' Ho Hsrc; cbn [enc_type] in H'.
    1-7: etell H'; split; [lia|]; split; [reflexivity|]; split; [reflexivity|]; split; [reflexivity|];
      intros m st en A v HI HA Hs HW; cbn [Spec.se_type].
    1-4: unfold se_prim; eapply esim_weaken; [apply esim_write; [|exact HW]|apply le_n|apply le_n|intros; exact I];
      cbn [Encode.erun]; unfold ereg; rewrite Hs; reflexivity.
    1-2: unfold se_repr; cbn [refuse]; eapply esim_weaken; [apply esim_write; [|exact HW]|apply le_n|apply le_n|intros; exact I];
      cbn [Encode.erun]; unfold ereg; rewrite Hs; reflexivity.
    1: unfold se_foreign; cbn [refuse]; eapply esim_weaken; [apply esim_write; [|exact HW]|apply le_n|apply le_n|intros; exact I];
      cbn [Encode.erun mapM]; unfold ereg; rewrite Hs; reflexivity.
    - (* TRef *)
      ei H' rs c1 G. pose proof (eevals_spec _ _ _ _ _ H') as (L1 & M1 & M2 & Sc & _).
      assert (X : c1 = c' /\ exists i', i0 = [i'] /\ (forall m, escan i' m = m) /\
        i' = match p n with Some {| d_ty := TForeign f |} => NForeign tgt src f rs | _ => NRef tgt src n rs end).
      { destruct (p n) as [[a0 t0 pm]|]; [destruct t0|]; etell G; (split; [reflexivity|]); eexists; (split; [reflexivity|]); split; reflexivity. }
      destruct X as (-> & i' & -> & Sc2 & Ei). clear G.
      split; [assumption|]. split; [assumption|]. split; [assumption|]. split.
      { intros m. rewrite escans_app, Sc. cbn. apply Sc2. }
      intros m st en A v HI HA Hs HW. cbn [Spec.se_type].
      eapply (esim_evals _ _ _ _ _ (ec_rc c') m st en A) with (Q := any); [exact H'|exact HI|exact HA|lia| |intros; exact I].
      intros vs new K Em.
      assert (Hs' : assoc src (new ++ es_regs st) = Some v) by (eapply assoc_old; eauto).
      assert (E : erun m i' {| es_regs := new ++ es_regs st; es_snk := es_snk st |} =
        let! b := (match p n with Some {| d_ty := TForeign f |} => w_fenc w f vs v | _ => let! (b, _) := srec n vs v in Ok b end) in
        let! st := ewrite (key tgt) b {| es_regs := new ++ es_regs st; es_snk := es_snk st |} in Ok (ENext st)).
      { rewrite Ei. destruct (p n) as [[a0 t0 pm]|]; [destruct t0|]; cbn [Encode.erun]; rewrite mapM_ereg; cbn [es_regs]; rewrite Em; cbn [bind];
          unfold ereg; cbn [es_regs]; rewrite Hs'; cbn [of_some bind]; rewrite ?Hrec; reflexivity. }
      assert (W : esim [i'] (key tgt) (ec_rc c') (ec_rc c') m {| es_regs := new ++ es_regs st; es_snk := es_snk st |} (es_snk st)
        (let! b := (match p n with Some {| d_ty := TForeign f |} => w_fenc w f vs v | _ => let! (b, _) := srec n vs v in Ok b end) in Ok (b, v)) any).
      { eapply esim_weaken; [eapply esim_write with (t := key tgt) (st := {| es_regs := new ++ es_regs st; es_snk := es_snk st |}); [exact E|exact HW]|apply le_n|apply le_n|intros; exact I]. }
      clear E Ei. destruct (p n) as [[a0 t0 pm]|]; [destruct t0|]; cbn [se_foreign refuse]; try exact W.
      all: destruct (srec n vs v) as [[b v']| | |]; exact W.
    - (* TArr *)
      cbn [Spec.se_type]. eapply enc_array_ok with (recg := fun tgt src => enc_type p rf t tgt src); try eassumption.
    - discriminate.
  Qed.

  Lemma old_some r hi : (r < hi)%nat -> old_key hi (Some r).
  Proof. intros H q E. injection E as <-. assumption. Qed.
  Lemma old_key_neq lo k r : old_key lo k -> (lo <= r)%nat -> key_eqb k (Some r) = false.
  Proof.
    intros Hk L. destruct (key_eqb k (Some r)) eqn:E; [|reflexivity]. apply key_eqb_eq in E. specialize (Hk r E). lia.
  Qed.
  Ltac skc := repeat (apply Forall_cons; [eexists; split; [reflexivity|cbn; lia]|]); apply Forall_nil.

  (** *** Transforms *)
  Notation se_xs := (se_xs w inputs None).
  Definition ends_of (l : list (nat * option nat)) : list einstr :=
    flat_map (fun so => NEndStream (fst so) :: match snd so with Some o => [NDrop o] | None => [] end) l.
  Lemma enc_ends_spec l : forall c is u c', enc_ends l c = Some (is, u, c') -> is = ends_of l /\ c' = c.
  Proof.
    induction l as [|[s o] l IH]; intros c is u c' H; cbn [enc_ends] in H.
    - ert H. auto.
    - ei H t1 c1 G. etell H. ei G t2 c2 G1. apply IH in G1 as (-> & ->). cbn.
      destruct o as [o|]; [etell G|ert G]; auto.
  Qed.
  Lemma ends_of_app a b : ends_of (a ++ b) = ends_of a ++ ends_of b.
  Proof. unfold ends_of. apply flat_map_app. Qed.
  Lemma ends_scan l m : escans (ends_of l) m = m.
  Proof. induction l as [|[s [o|]] l IH]; cbn; auto. Qed.

  Lemma escan_condwrap m c l s r o x a : escan (NCondWrap c l s r o x a) m = escans l m.
  Proof. reflexivity. Qed.
  Lemma erun_condwrap m c prelude s r o x args st : erun m (NCondWrap c prelude s r o x args) st =
        (let! cv := ereg c st in
        let! b := bool_of cv in
        if b then
          let! out := eseq m prelude st in
          match out with
          | EBrk st => Ok (EBrk st)
          | ENext st' =>
              let! vs := mapM (fun a => ereg a st') args in
              Ok (ENext (epush (Some r) (KAlias (Some o)) (epush (Some o) (KXf (key s) x vs []) (eleave st st'))))
          end
        else Ok (ENext (epush (Some r) (KAlias (key s)) (epush (Some o) KGone st)))).
  Proof. reflexivity. Qed.
  Lemma eleave_new st (new : regs) (g : sinks) : eleave st {| es_regs := new ++ es_regs st; es_snk := g ++ es_snk st |} = st.
  Proof. unfold eleave. cbn [es_regs es_snk]. rewrite !truncate_app by reflexivity. destruct st; reflexivity. Qed.

  Lemma esim_bind_err {A B} (x : res ioerr B) (f : B -> res ioerr (list Z * A)) code t lo hi m st base Q :
    (match x with Ok _ => True | Err e => eseq m code st = Err e | Panic => eseq m code st = Panic | Hang => eseq m code st = Hang end) ->
    (forall v, x = Ok v -> esim code t lo hi m st base (f v) Q) ->
    esim code t lo hi m st base (bind x f) Q.
  Proof. destruct x; cbn [bind]; auto. Qed.

  (** Code between opening and closing a stream. *)
  Lemma esim_wrapped {A} code0 code1 cl (x : list Z -> res ioerr (list Z)) t s lo mid hi m st new0 top (r : res ioerr (list Z * A)) (Q Q' : A -> regs -> Prop) :
    eseq m code0 st = Ok (ENext {| es_regs := new0 ++ es_regs st; es_snk := top ++ es_snk st |}) ->
    escans code0 m = m -> keys_in lo mid new0 -> (lo <= mid)%nat -> (mid <= hi)%nat ->
    esim code1 s mid hi m {| es_regs := new0 ++ es_regs st; es_snk := top ++ es_snk st |} (top ++ es_snk st) r Q ->
    (forall b base' g rg m', wr s b (top ++ es_snk st) = Some base' -> skeys_in mid hi g ->
       match x b with
       | Ok b' => exists top' l', skeys_in lo mid top' /\ wr t b' (es_snk st) = Some l' /\
            eseq m' cl {| es_regs := rg; es_snk := g ++ base' |} = Ok (ENext {| es_regs := rg; es_snk := g ++ top' ++ l' |})
       | Err e => eseq m' cl {| es_regs := rg; es_snk := g ++ base' |} = Err e
       | Panic => eseq m' cl {| es_regs := rg; es_snk := g ++ base' |} = Panic
       | Hang => eseq m' cl {| es_regs := rg; es_snk := g ++ base' |} = Hang
       end) ->
    (forall a new, keys_in mid hi new -> Q a new -> Q' a (new ++ new0)) ->
    esim (code0 ++ code1 ++ cl) t lo hi m st (es_snk st) (let! (b, a) := r in let! b' := x b in Ok (b', a)) Q'.
  Proof.
    intros E0 Sc K0 L1 L2 H Hcl HQ. unfold esim in *. rewrite !eseq_app, !E0. cbn [bind]. rewrite !Sc, !eseq_app.
    destruct r as [[b a]| | |]; cbn [bind]; try (rewrite H; reflexivity).
    destruct H as (new & g & base' & K & G & W & E & Hq). rewrite E. cbn [bind es_regs].
    specialize (Hcl b base' g (new ++ new0 ++ es_regs st) (escans code1 m) W G).
    destruct (x b) as [b'| | |]; cbn [bind]; try exact Hcl.
    destruct Hcl as (top' & l' & T & W' & E'). rewrite E'.
    exists (new ++ new0), (g ++ top'), l'. rewrite <- !app_assoc.
    split; [apply keys_in_app; eapply keys_in_weaken; eauto; lia|]. split; [apply skeys_in_app; eapply skeys_in_weaken; eauto; lia|].
    split; [assumption|]. split; [reflexivity|]. apply HQ; assumption.
  Qed.
  Lemma bind_refuse {A B} (x : res ioerr A) (ok : A -> bool) (f : A -> res ioerr B) :
    (let! a := x in refuse None (ok a) (f a)) = let! a := x in f a.
  Proof. reflexivity. Qed.
  Lemma key_eqb_some a b : key_eqb (Some a) (Some b) = Nat.eqb a b.
  Proof. reflexivity. Qed.

  Lemma enc_xs_ok xs : forall tgt c is inner streams c', enc_xs xs tgt c = Some (is, (inner, streams), c') -> old_key (ec_rc c) (key tgt) ->
    (ec_rc c <= ec_rc c')%nat /\ ec_resolved c' = ec_resolved c /\ ec_pending c' = ec_pending c /\ (forall m, escans is m = m) /\
    old_key (ec_rc c') (key inner) /\
    forall B m st en (A : string -> Prop) (sk : res ioerr (list Z * B)) code hi (Q Q' : B -> regs -> Prop),
      einv (ec_rc c) m (es_regs st) en A -> (forall n, In n (xs_fv xs) -> A n) -> writable (key tgt) (es_snk st) -> (ec_rc c' <= hi)%nat ->
      (forall new g, keys_in (ec_rc c) (ec_rc c') new -> skeys_in (ec_rc c) (ec_rc c') g -> writable (key inner) (g ++ es_snk st) ->
        esim code (key inner) (ec_rc c') hi m {| es_regs := new ++ es_regs st; es_snk := g ++ es_snk st |} (g ++ es_snk st) sk Q) ->
      (forall a new new0, keys_in (ec_rc c') hi new -> keys_in (ec_rc c) (ec_rc c') new0 -> Q a new -> Q' a (new ++ new0)) ->
      esim (is ++ code ++ ends_of (rev streams)) (key tgt) (ec_rc c) hi m st (es_snk st) (se_xs en xs sk) Q'.
  Proof.
    induction xs as [|x xs IH]; intros tgt c is inner streams c' H Ho; cbn [enc_xs] in H.
    - apply eret_spec in H as (-> & Eq & ->). injection Eq as -> ->.
      split; [lia|]. split; [reflexivity|]. split; [reflexivity|]. split; [reflexivity|]. split; [assumption|].
      intros B m st en A sk code hi Q Q' HI HA HW L Hk HQ. cbn [rev ends_of flat_map Spec.se_xs app]. rewrite app_nil_r.
      specialize (Hk [] [] ltac:(constructor) ltac:(constructor) HW). cbn [app] in Hk. destruct st as [rg sn].
      eapply esim_weaken; [exact Hk|lia|lia|]. intros a new K Hq. specialize (HQ a new [] K ltac:(constructor) Hq). rewrite app_nil_r in HQ. exact HQ.
    - ei H cond c1 G. destruct x as [xn xc xa]. cbn [x_cond x_args x_name] in *. destruct xc as [e|].
      + (* conditional *)
        ei H r c0 H1. ert H1. apply eeval_spec in H as (-> & -> & E1 & E2 & E3).
        ei G pa c2 G1. destruct pa as [prelude args]. apply block_some in G as (p1 & a1 & G & Eq & ->). injection Eq as -> ->.
        ei G1 s c3 G2. apply efresh_spec in G1 as (-> & -> & F1 & F2 & F3).
        ei G2 o c4 G3. apply efresh_spec in G2 as (-> & -> & F4 & F5 & F6).
        ei G3 t1 c5 G4. etell G3. ei G4 il c6 G5. destruct il as [inner' l]. apply eret_spec in G5 as (-> & Eq & ->). injection Eq as -> ->.
        pose proof (eevals_spec _ _ _ _ _ G) as (L1 & M1 & M2 & Sc1 & _).
        assert (Hos : old_key (ec_rc c4) (key (TStream (ec_rc c2)))) by (apply old_some; lia).
        destruct (IH _ _ _ _ _ _ G4 Hos) as (L2 & M3 & M4 & Sc2 & Ho2 & R). clear IH.
        rewrite ?app_nil_r. cbn [app].
        split; [lia|]. split; [congruence|]. split; [congruence|].
        split. { intros m. cbn [escans]. rewrite escan_condwrap, Sc1. apply Sc2. }
        split; [assumption|].
        intros B m st en A sk code hi Q Q' HI HA HW L Hk HQ.
        assert (HA1 : forall n, In n (fv e) -> A n) by (intros n Hn; apply HA; cbn; rewrite !in_app_iff; auto).
        assert (HA2 : forall n, In n (fvs xa) -> A n) by (intros n Hn; apply HA; cbn; rewrite !in_app_iff; auto).
        assert (HA3 : forall n, In n (xs_fv xs) -> A n) by (intros n Hn; apply HA; cbn; rewrite !in_app_iff; auto).
        cbn [Spec.se_xs x_cond x_args x_name]. rewrite bind_assoc.
        rewrite E1 in *.
        eapply esim_eval with (Q := fun a new => forall new0, keys_in (ec_rc c) (S (ec_rc c)) new0 -> Q' a (new ++ new0)); [exact HI|exact HA1|lia| |].
        2:{ intros v a new K Hq. apply Hq. constructor; [cbn; lia|constructor]. }
        intros cv. set (st1 := {| es_regs := (ec_rc c, cv) :: es_regs st; es_snk := es_snk st |}).
        assert (HI1 : einv (S (ec_rc c)) m (es_regs st1) en A) by (apply einv_cons; [assumption|lia]).
        cbn [rev]. rewrite ends_of_app.
        change (ends_of [(ec_rc c2, Some (ec_rc c3))]) with [NEndStream (ec_rc c2); NDrop (ec_rc c3)].
        set (cw := NCondWrap (ec_rc c) p1 tgt (ec_rc c2) (ec_rc c3) xn a1).
        assert (Ecw : erun m cw st1 = let! b := bool_of cv in
          if b then let! out := eseq m p1 st1 in
            match out with
            | EBrk st => Ok (EBrk st)
            | ENext st' =>
              let! vs := mapM (fun a => ereg a st') a1 in
              Ok (ENext (epush (Some (ec_rc c2)) (KAlias (Some (ec_rc c3))) (epush (Some (ec_rc c3)) (KXf (key tgt) xn vs []) (eleave st1 st'))))
            end
          else Ok (ENext (epush (Some (ec_rc c2)) (KAlias (key tgt)) (epush (Some (ec_rc c3)) KGone st1)))).
        { unfold cw. rewrite erun_condwrap. unfold ereg at 1. cbn [st1 es_regs assoc]. rewrite Nat.eqb_refl. reflexivity. }
        apply esim_bind_err.
        { destruct cv; try exact I; cbn [bool_of]; rewrite eseq_cons, Ecw; reflexivity. }
        intros b Eb. rewrite Eb in Ecw. cbn [bind] in Ecw.
        assert (Scw : escan cw m = m) by (unfold cw; rewrite escan_condwrap; apply Sc1).
        match goal with |- esim ?x _ _ _ _ _ _ _ _ =>
          replace x with ([cw] ++ (i ++ code ++ ends_of (rev l)) ++ [NEndStream (ec_rc c2); NDrop (ec_rc c3)]) by (rewrite <- !app_assoc; reflexivity) end.
        assert (Hne : ec_rc c2 <> ec_rc c3) by lia.
        assert (Hne2 : key_eqb (key tgt) (Some (ec_rc c3)) = false) by (eapply (old_key_neq (ec_rc c)); [exact Ho|lia]).
        destruct b.
        * (* the transform applies *)
          pose proof (eevals_spec _ _ _ _ _ G) as (_ & _ & _ & _ & Rv). rewrite E1 in Rv. specialize (Rv m st1 en A HI1 HA2).
          apply esim_bind_err.
          { destruct (mapM (ev en) xa); auto; rewrite <- app_assoc, eseq_app, eseq_one, Ecw, Rv; reflexivity. }
          intros vs Evs. rewrite Evs in Rv. destruct Rv as (nv & Kn & Ev & Em).
          cbn [refuse].
          set (top := [(Some (ec_rc c2), KAlias (Some (ec_rc c3))); (Some (ec_rc c3), KXf (key tgt) xn vs [])]).
          eapply (esim_wrapped [cw] _ _ (w_xenc w xn vs) (key tgt) (Some (ec_rc c2)) (S (ec_rc c)) (ec_rc c4) hi m st1 [] top)
            with (Q := fun a new => forall n1, keys_in (ec_rc c) (ec_rc c4) n1 -> Q' a (new ++ n1)).
          -- rewrite eseq_one, Ecw, Ev. cbn [bind]. rewrite mapM_ereg. cbn [es_regs]. rewrite Em. cbn [bind].
             pose proof (eleave_new st1 nv []) as El. cbn [app] in El. rewrite El. reflexivity.
          -- cbn. exact Scw.
          -- constructor.
          -- lia.
          -- lia.
          -- cbn [app]. eapply (R B m {| es_regs := es_regs st1; es_snk := top ++ es_snk st1 |} en A sk code hi) with (Q := Q); cbn [es_regs es_snk].
             ++ eapply einv_mono; [exact HI1|lia].
             ++ exact HA3.
             ++ unfold writable. cbn. rewrite Nat.eqb_refl. cbn. rewrite Nat.eqb_refl. reflexivity.
             ++ exact L.
             ++ intros new g K Gk W. rewrite (app_assoc g top) in *.
                specialize (Hk (new ++ [(ec_rc c, cv)]) (g ++ top)).
                rewrite <- (app_assoc new) in Hk. apply Hk.
                ** apply keys_in_app; [eapply keys_in_weaken; [exact K| |]; lia|]. constructor; [cbn; lia|constructor].
                ** apply skeys_in_app; [eapply skeys_in_weaken; [exact Gk| |]; lia|]. skc.
                ** exact W.
             ++ intros a new n0 K K0 Hq n1 K1. rewrite <- app_assoc. apply HQ; [exact K| |exact Hq].
                apply keys_in_app; eapply keys_in_weaken; eauto; lia.
          -- intros bb base' g rg m' W Gk. cbn [top app wr key_eqb] in W. rewrite !Nat.eqb_refl in W. cbn [app] in W. injection W as <-.
             assert (Hf : eseq m' [NEndStream (ec_rc c2); NDrop (ec_rc c3)] {| es_regs := rg; es_snk := g ++ (Some (ec_rc c2), KAlias (Some (ec_rc c3))) :: (Some (ec_rc c3), KXf (key tgt) xn vs bb) :: es_snk st |}
               = let! b' := w_xenc w xn vs bb in let! l' := of_some (wr (key tgt) b' (es_snk st)) in
                 Ok (ENext {| es_regs := rg; es_snk := g ++ [(Some (ec_rc c2), KGone); (Some (ec_rc c3), KGone)] ++ l' |})).
             { rewrite eseq_cons. cbn [Encode.erun es_snk]. rewrite (finish_old w (ec_rc c4) hi); [|apply old_some; lia|exact Gk]. cbn [finish]. rewrite key_eqb_some, Nat.eqb_refl. cbn [bind es_regs es_snk].
               rewrite eseq_one. cbn [Encode.erun es_snk]. rewrite (finish_old w (ec_rc c4) hi); [|apply old_some; lia|exact Gk]. cbn [finish]. rewrite !key_eqb_some, Nat.eqb_refl.
               destruct (Nat.eqb_spec (ec_rc c3) (ec_rc c2)); [lia|].
               destruct (w_xenc w xn vs bb) as [b'| | |]; cbn [bind]; try reflexivity. destruct (wr (key tgt) b' (es_snk st)); reflexivity. }
             rewrite Hf. destruct (w_xenc w xn vs bb) as [b'| | |]; cbn [bind]; try reflexivity.
             destruct (writable_wr _ _ b' HW) as (l' & Hl). exists [(Some (ec_rc c2), KGone); (Some (ec_rc c3), KGone)], l'.
             split; [skc|]. split; [exact Hl|]. rewrite Hl. reflexivity.
          -- intros a new K Hq n1 K1. rewrite <- app_assoc. apply Hq. apply keys_in_app; [constructor|]. eapply keys_in_weaken; [exact K1| |]; lia.
        * (* it does not *)
          set (top := [(Some (ec_rc c2), KAlias (key tgt)); (Some (ec_rc c3), KGone)]).
          apply esim_eq with (r := let! (b, a) := se_xs en xs sk in let! b' := Ok b in Ok (b', a)).
          2:{ destruct (se_xs en xs sk) as [[? ?]| | |]; reflexivity. }
          eapply (esim_wrapped [cw] _ _ (fun b => Ok b) (key tgt) (Some (ec_rc c2)) (S (ec_rc c)) (ec_rc c4) hi m st1 [] top)
            with (Q := fun a new => forall n1, keys_in (ec_rc c) (ec_rc c4) n1 -> Q' a (new ++ n1)).
          -- rewrite eseq_one, Ecw. reflexivity.
          -- cbn. exact Scw.
          -- constructor.
          -- lia.
          -- lia.
          -- cbn [app]. eapply (R B m {| es_regs := es_regs st1; es_snk := top ++ es_snk st1 |} en A sk code hi) with (Q := Q); cbn [es_regs es_snk].
             ++ eapply einv_mono; [exact HI1|lia].
             ++ exact HA3.
             ++ unfold writable. cbn. rewrite Nat.eqb_refl. rewrite Hne2. unfold writable in HW. rewrite HW. reflexivity.
             ++ exact L.
             ++ intros new g K Gk W. rewrite (app_assoc g top) in *.
                specialize (Hk (new ++ [(ec_rc c, cv)]) (g ++ top)).
                rewrite <- (app_assoc new) in Hk. apply Hk.
                ** apply keys_in_app; [eapply keys_in_weaken; [exact K| |]; lia|]. constructor; [cbn; lia|constructor].
                ** apply skeys_in_app; [eapply skeys_in_weaken; [exact Gk| |]; lia|]. skc.
                ** exact W.
             ++ intros a new n0 K K0 Hq n1 K1. rewrite <- app_assoc. apply HQ; [exact K| |exact Hq].
                apply keys_in_app; eapply keys_in_weaken; eauto; lia.
          -- intros bb base' g rg m' W Gk. cbn [top app wr key_eqb] in W. rewrite !Nat.eqb_refl in W. rewrite Hne2 in W.
             cbn [st1 es_snk] in W. destruct (wr (key tgt) bb (es_snk st)) as [l'|] eqn:Wl; [|discriminate]. injection W as <-.
             exists [(Some (ec_rc c2), KGone); (Some (ec_rc c3), KGone)], l'.
             split; [skc|]. split; [exact Wl|].
             rewrite eseq_cons. cbn [Encode.erun es_snk]. rewrite (finish_old w (ec_rc c4) hi); [|apply old_some; lia|exact Gk]. cbn [finish]. rewrite key_eqb_some, Nat.eqb_refl. cbn [bind es_regs es_snk].
             rewrite eseq_one. cbn [Encode.erun es_snk]. rewrite (finish_old w (ec_rc c4) hi); [|apply old_some; lia|exact Gk]. cbn [finish]. rewrite !key_eqb_some, Nat.eqb_refl.
             destruct (Nat.eqb_spec (ec_rc c3) (ec_rc c2)); [lia|]. reflexivity.
          -- intros a new K Hq n1 K1. rewrite <- app_assoc. apply Hq. apply keys_in_app; [constructor|]. eapply keys_in_weaken; [exact K1| |]; lia.
      + (* unconditional *)
        ert H. ei G args c2 G1. ei G1 s c3 G2. apply efresh_spec in G1 as (-> & -> & F1 & F2 & F3).
        ei G2 t1 c5 G4. etell G2. ei G4 il c6 G5. destruct il as [inner' l]. apply eret_spec in G5 as (-> & Eq & ->). injection Eq as -> ->.
        pose proof (eevals_spec _ _ _ _ _ G) as (L1 & M1 & M2 & Sc1 & Rv).
        assert (Hos : old_key (ec_rc c3) (key (TStream (ec_rc c2)))) by (apply old_some; lia).
        destruct (IH _ _ _ _ _ _ G4 Hos) as (L2 & M3 & M4 & Sc2 & Ho2 & R). clear IH.
        rewrite ?app_nil_r. cbn [app].
        split; [lia|]. split; [congruence|]. split; [congruence|].
        split. { intros m. rewrite escans_app, Sc1. cbn [escans escan]. apply Sc2. }
        split; [assumption|].
        intros B m st en A sk code hi Q Q' HI HA HW L Hk HQ.
        assert (HA2 : forall n, In n (fvs xa) -> A n) by (intros n Hn; apply HA; cbn; rewrite !in_app_iff; auto).
        assert (HA3 : forall n, In n (xs_fv xs) -> A n) by (intros n Hn; apply HA; cbn; rewrite !in_app_iff; auto).
        cbn [Spec.se_xs x_cond x_args x_name bind]. specialize (Rv m st en A HI HA2).
        cbn [rev]. rewrite ends_of_app. change (ends_of [(ec_rc c2, None)]) with [NEndStream (ec_rc c2)].
        apply esim_bind_err.
        { destruct (mapM (ev en) xa); auto; rewrite <- app_assoc, eseq_app, Rv; reflexivity. }
        intros vs Evs. rewrite Evs in Rv. destruct Rv as (nv & Kn & Ev & Em). cbn [refuse].
        set (cw := NWrap tgt (ec_rc c2) xn args) in *.
        match goal with |- esim ?x _ _ _ _ _ _ _ _ =>
          replace x with ((i ++ [cw]) ++ (i0 ++ code ++ ends_of (rev l)) ++ [NEndStream (ec_rc c2)]) by (rewrite <- !app_assoc; reflexivity) end.
        set (top := [(Some (ec_rc c2), KXf (key tgt) xn vs [])]).
        eapply (esim_wrapped (i ++ [cw]) _ _ (w_xenc w xn vs) (key tgt) (Some (ec_rc c2)) (ec_rc c) (ec_rc c3) hi m st nv top)
          with (Q := fun a new => forall n1, keys_in (ec_rc c) (ec_rc c3) n1 -> Q' a (new ++ n1)).
        -- rewrite eseq_app, Ev. cbn [bind]. rewrite eseq_one. cbn [Encode.erun cw]. rewrite mapM_ereg. cbn [es_regs]. rewrite Em. reflexivity.
        -- rewrite escans_app, Sc1. reflexivity.
        -- eapply keys_in_weaken; [exact Kn| |]; lia.
        -- lia.
        -- lia.
        -- eapply (R B m {| es_regs := nv ++ es_regs st; es_snk := top ++ es_snk st |} en A sk code hi) with (Q := Q); cbn [es_regs es_snk].
           ++ apply einv_ext with (hi := ec_rc c); [exact HI| |lia]. eapply keys_in_weaken; [exact Kn| |]; lia.
           ++ exact HA3.
           ++ unfold writable. cbn. rewrite Nat.eqb_refl. reflexivity.
           ++ exact L.
           ++ intros new g K Gk W. rewrite (app_assoc g top) in *.
              specialize (Hk (new ++ nv) (g ++ top)).
              rewrite <- (app_assoc new) in Hk. apply Hk.
              ** apply keys_in_app; eapply keys_in_weaken; eauto; lia.
              ** apply skeys_in_app; [eapply skeys_in_weaken; [exact Gk| |]; lia|]. skc.
              ** exact W.
           ++ intros a new n0 K K0 Hq n1 K1. rewrite <- app_assoc. apply HQ; [exact K| |exact Hq].
              apply keys_in_app; eapply keys_in_weaken; eauto; lia.
        -- intros bb base' g rg m' W Gk. cbn [top app wr key_eqb] in W. rewrite !Nat.eqb_refl in W. cbn [app] in W. injection W as <-.
           assert (Hf : eseq m' [NEndStream (ec_rc c2)] {| es_regs := rg; es_snk := g ++ (Some (ec_rc c2), KXf (key tgt) xn vs bb) :: es_snk st |}
             = let! b' := w_xenc w xn vs bb in let! l' := of_some (wr (key tgt) b' (es_snk st)) in
               Ok (ENext {| es_regs := rg; es_snk := g ++ [(Some (ec_rc c2), KGone)] ++ l' |})).
           { rewrite eseq_one. cbn [Encode.erun es_snk]. rewrite (finish_old w (ec_rc c3) hi); [|apply old_some; lia|exact Gk]. cbn [finish]. rewrite key_eqb_some, Nat.eqb_refl. cbn [bind es_regs es_snk].
             destruct (w_xenc w xn vs bb) as [b'| | |]; cbn [bind]; try reflexivity. destruct (wr (key tgt) b' (es_snk st)); reflexivity. }
           rewrite Hf. destruct (w_xenc w xn vs bb) as [b'| | |]; cbn [bind]; try reflexivity.
           destruct (writable_wr _ _ b' HW) as (l' & Hl). exists [(Some (ec_rc c2), KGone)], l'.
           split; [skc|]. split; [exact Hl|]. rewrite Hl. reflexivity.
        -- intros a new K Hq. apply Hq. eapply keys_in_weaken; [exact Kn| |]; lia.
  Qed.

  (** *** Fields *)
  Notation se_complex := (se_complex w p rf inputs None srec).
  Notation se_field := (se_field w inputs None).
  Notation se_items := (se_items w inputs None).
  Notation se_unwraps := (se_unwraps).

  Definition regs_lt (hi : nat) (rg : regs) : Prop := Forall (fun kv => (fst kv < hi)%nat) rg.
  Lemma regs_lt_app lo hi new rg : keys_in lo hi new -> regs_lt lo rg -> (lo <= hi)%nat -> regs_lt hi (new ++ rg).
  Proof.
    intros K R L. apply Forall_app. split.
    - eapply Forall_impl; [|exact K]. cbn. intros. lia.
    - eapply Forall_impl; [|exact R]. cbn. intros. lia.
  Qed.
  Lemma regs_lt_mono lo hi rg : regs_lt lo rg -> (lo <= hi)%nat -> regs_lt hi rg.
  Proof. intros R L. eapply Forall_impl; [|exact R]. cbn. intros. lia. Qed.
  Lemma regs_lt_none hi r rg : regs_lt hi rg -> (hi <= r)%nat -> assoc r rg = None.
  Proof.
    intros R L. induction R as [|[k v] rg H R IH]; [reflexivity|]. cbn in *. destruct (Nat.eqb_spec r k); [lia|assumption].
  Qed.

  (** The generator's bookkeeping before and after a field. *)
  Definition ready (f : fattr * ty) (c : ectx) (pend : bool) : Prop :=
    (forall n, In n (cnames f) -> lookup n (ec_resolved c) = None)
    /\ (is_cont (snd f) = true -> mem (fa_name (fst f)) (ec_pending c) = pend)
    /\ (forall n, In n (conts (snd f)) -> mem n (ec_pending c) = false)
    /\ NoDup (cnames f).
  Definition edone (f : fattr * ty) (c c' : ectx) (pend : bool) (is : list einstr) : Prop :=
    (ec_rc c <= ec_rc c')%nat
    /\ (exists lr, ec_resolved c' = lr ++ ec_resolved c /\ incl (map fst lr) (cnames f)
          /\ (pend && is_some (cont_len (snd f)) = true -> exists r, lookup (fa_name (fst f)) (ec_resolved c') = Some r /\ (r < ec_rc c')%nat))
    /\ (forall n, mem n (ec_pending c') = mem n (ec_pending c) && negb (pend && is_some (cont_len (snd f)) && String.eqb n (fa_name (fst f))))
    /\ exists leak, (forall m, escans is m = leak ++ m)
         /\ Forall (fun nr => In (fst nr) (touched (snd f)) /\ (snd nr < ec_rc c')%nat) leak.
  (** The length asked for is in the register the generator says. *)
  Definition lenq (f : fattr * ty) (c' : ectx) (pend : bool) : vals * nat -> regs -> Prop := fun vn new =>
    pend && is_some (cont_len (snd f)) = true ->
    exists r, lookup (fa_name (fst f)) (ec_resolved c') = Some r /\ assoc r new = Some (VInt U64 (Z.of_nat (snd vn))).
  Definition with_len (r : res ioerr (list Z * vals)) : res ioerr (list Z * (vals * nat)) :=
    let! (b, vs) := r in Ok (b, (vs, List.length b)).

  Definition kspec (f : fattr * ty) (k : target -> nat -> bool -> egen unit) (kr : env -> val -> bool -> bool -> res ioerr (list Z * vals))
      (vis : list string) : Prop :=
    forall tgt src cond c is u c' pend, k tgt src cond c = Some (is, u, c') -> old_key (ec_rc c) (key tgt) ->
      (is_cont (snd f) = false -> (src < ec_rc c)%nat) -> ready f c pend ->
      edone f c c' pend is /\
      forall m st en (A : string -> Prop) v, einv (ec_rc c) m (es_regs st) en A ->
        (forall n, In n (vis ++ leaf_names (flatten_ty (snd f))) -> A n) ->
        (is_cont (snd f) = false -> assoc src (es_regs st) = Some v) -> regs_lt (ec_rc c) (es_regs st) -> writable (key tgt) (es_snk st) ->
        esim is (key tgt) (ec_rc c) (ec_rc c') m st (es_snk st) (with_len (kr en v cond pend)) (lenq f c' pend).

  Lemma ready_same f c c' pend : ready f c pend -> ec_resolved c' = ec_resolved c -> ec_pending c' = ec_pending c -> ready f c' pend.
  Proof. unfold ready. intros H -> ->. exact H. Qed.
  Lemma edone_same f c c' pend is : is_cont (snd f) = false -> (ec_rc c <= ec_rc c')%nat -> ec_resolved c' = ec_resolved c -> ec_pending c' = ec_pending c ->
    (forall m, escans is m = m) -> edone f c c' pend is.
  Proof.
    intros Hc L E1 E2 Sc. split; [assumption|]. split.
    { exists []. split; [assumption|]. split; [intros ? []|]. destruct (snd f); try discriminate Hc; cbn; rewrite andb_false_r; discriminate. }
    split.
    - intros n. rewrite E2. destruct (snd f); try discriminate Hc; cbn; rewrite andb_false_r; cbn; rewrite andb_true_r; reflexivity.
    - exists []. split; [assumption|constructor].
  Qed.

  Lemma enc_leaf_ok a t vis : is_cont t = false -> fa_pad a = false -> subset (ty_fv t) vis = true ->
    kspec (a, t) (enc_complex p rf false a t) (se_complex a t) vis.
  Proof.
    intros Hc Hp Hs tgt src cond c is u c' pend H Ho Hsrc Hr. cbn [fst snd] in *.
    assert (H1 : enc_type p rf t tgt src c = Some (is, u, c')) by (destruct t; try discriminate Hc; exact H).
    destruct (enc_type_ok t _ _ _ _ _ _ H1 Ho (Hsrc Hc)) as (L & M1 & M2 & Sc & R).
    split; [apply edone_same; assumption|].
    intros m st en A v HI HA Hv _ HW.
    assert (E : se_complex a t en v cond pend = let! (b, v') := se_type en t v in Ok (b, [(fa_name a, v')])).
    { destruct t; try discriminate Hc; cbn; rewrite Hp; reflexivity. }
    rewrite E. unfold with_len. rewrite bind_assoc.
    assert (R1 : esim is (key tgt) (ec_rc c) (ec_rc c') m st (es_snk st) (se_type en t v) any).
    { apply R with (A := A); try assumption; [|auto]. intros n Hn. apply HA. apply in_app_iff. left.
      apply (subset_incl _ _ Hs). assumption. }
    unfold esim in *. destruct (se_type en t v) as [[b v']| | |]; cbn [bind]; try exact R1.
    destruct R1 as (new & g & base' & K & G & W & E1 & _). exists new, g, base'. do 4 (split; [assumption|]).
    unfold lenq. cbn [fst snd]. destruct t; try discriminate Hc; cbn; rewrite andb_false_r; discriminate.
  Qed.

  Definition opt_leaf (a : fattr) (t : ty) : bool := negb (is_cont t) && negb (is_some (fa_calc a)) && negb (fa_pad a).

  Lemma enc_uncond_ok a t k vis pseudo self_cond : (fa_pad a = false -> kspec (a, t) k (se_complex a t) vis) ->
    subset (xs_fv (fa_xs a)) vis = true -> ewf vis t = true -> pseudo = is_cont t \/ self_cond = false ->
    forall tgt src cond c is u c' pend, enc_uncond k a t pseudo tgt src self_cond cond c = Some (is, u, c') -> old_key (ec_rc c) (key tgt) ->
      (is_cont t || fa_pad a = false -> (src < ec_rc c)%nat) -> ready (a, t) c pend ->
      edone (a, t) c c' pend is /\
      forall m st en (A : string -> Prop) v, einv (ec_rc c) m (es_regs st) en A ->
        (forall n, In n (vis ++ leaf_names (flatten_ty t)) -> A n) ->
        (is_cont t || fa_pad a = false -> assoc src (es_regs st) = Some v) -> regs_lt (ec_rc c) (es_regs st) -> writable (key tgt) (es_snk st) ->
        esim is (key tgt) (ec_rc c) (ec_rc c') m st (es_snk st)
          (se_xs en (fa_xs a) (let! v := (if self_cond && opt_leaf a t then unwrap_opt v else Ok v) in with_len (se_complex a t en v cond pend)))
          (lenq (a, t) c' pend).
  Proof.
    intros Hk Hxs Hwf Hps tgt src cond c is u c' pend H Ho Hsrc Hr. unfold enc_uncond in H.
    ei H il c1 G. destruct il as [inner streams]. ei G src' c2 G1. ei G1 t1 c3 G2. apply enc_ends_spec in G2 as (-> & ->).
    destruct (enc_xs_ok _ _ _ _ _ _ _ H Ho) as (L1 & M1 & M2 & Sc1 & Ho1 & R1).
    assert (Eps : self_cond && negb pseudo && (match fa_calc a with Some _ => false | None => true end) && negb (fa_pad a) = self_cond && opt_leaf a t).
    { unfold opt_leaf. destruct Hps as [-> | ->]; [|reflexivity]. destruct self_cond; cbn; [|reflexivity]. destruct (is_cont t); cbn; [reflexivity|].
      destruct (fa_calc a); reflexivity. }
    rewrite Eps in G. clear Eps.
    assert (HA1 : forall (A : string -> Prop), (forall n, In n (vis ++ leaf_names (flatten_ty t)) -> A n) -> forall n, In n (xs_fv (fa_xs a)) -> A n).
    { intros A HA n Hn. apply HA. apply in_app_iff. left. apply (subset_incl _ _ Hxs). assumption. }
    destruct (fa_pad a) eqn:Ep.
    - (* a pad *)
      assert (Ho' : opt_leaf a t = false) by (unfold opt_leaf; rewrite Ep; cbn; apply andb_false_r).
      rewrite Ho', andb_false_r in *. ert G. destruct t as [| | | | | | | |el lc|]; try discriminate G1. destruct lc as [e| |]; try discriminate G1.
      ei G1 r c4 G2. apply eeval_spec in G1 as (-> & -> & E1 & E2 & E3). etell G2. cbn [app].
      rewrite orb_true_r in *.
      split. { apply edone_same; [reflexivity|lia|congruence|congruence|]. intros m. rewrite !escans_app, Sc1. cbn. apply ends_scan. }
      intros m st en A v HI HA Hv Hlt HW. cbn [bind].
      match goal with |- esim (?i ++ ?x :: ?y :: ?z) _ _ _ _ _ _ _ _ => change (i ++ x :: y :: z) with (i ++ [x; y] ++ z) end.
      eapply R1 with (Q := any); [exact HI|apply HA1; exact HA|exact HW|lia| |].
      2:{ intros. intros X. cbn in X. rewrite andb_false_r in X. discriminate. }
      intros new g K Gk W. cbn. rewrite Ep. unfold with_len. rewrite !bind_assoc.
      eapply esim_eval with (Q := any).
      + eapply einv_ext; [exact HI|exact K|lia].
      + intros n Hn. apply HA. apply in_app_iff. left. cbn [ewf ty_fv] in Hwf. apply (subset_incl _ _ Hwf). apply in_app_iff. auto.
      + lia.
      + intros lv. rewrite E1. cbn [es_regs es_snk].
        eapply esim_eq with (r := let! b := (let! n := len_of lv in Ok (repeat 0 n)) in Ok (b, ([], List.length b))).
        2:{ rewrite !bind_assoc. apply bind_ext. intros; reflexivity. }
        unfold esim. rewrite !eseq_one. cbn [Encode.erun]. unfold ereg. cbn [es_regs assoc]. rewrite Nat.eqb_refl. cbn [of_some bind].
        destruct (len_of lv) as [n| | |]; cbn [bind]; try reflexivity.
        destruct (writable_wr _ _ (repeat 0 n) W) as (l' & Hl). unfold ewrite. cbn [es_snk es_regs]. rewrite Hl. cbn [of_some bind].
        exists [], [], l'. split; [constructor|]. split; [constructor|]. split; [reflexivity|]. split; [reflexivity|exact I].
      + intros; exact I.
    - rewrite orb_false_r in *.
      assert (Hk' := Hk eq_refl). clear Hk.
      (* the value written *)
      assert (X : (ec_rc c1 <= ec_rc c2)%nat /\ ec_resolved c2 = ec_resolved c1 /\ ec_pending c2 = ec_pending c1 /\
        ((self_cond && opt_leaf a t = true /\ i1 = [NNullCheck src (ec_rc c1)] /\ src' = ec_rc c1 /\ ec_rc c2 = S (ec_rc c1)) \/
         (self_cond && opt_leaf a t = false /\ i1 = [] /\ src' = src /\ c2 = c1))).
      { destruct (self_cond && opt_leaf a t).
        - ei G r c4 G2. apply efresh_spec in G as (-> & -> & F1 & F2 & F3). ei G2 t2 c5 G3. etell G2. ert G3. rewrite app_nil_r.
          split; [lia|]. split; [congruence|]. split; [congruence|]. left. auto.
        - ert G. split; [lia|]. split; [reflexivity|]. split; [reflexivity|]. right. auto. }
      clear G. destruct X as (L2 & M3 & M4 & X).
      assert (Hs' : is_cont t = false -> (src' < ec_rc c2)%nat).
      { intros Hc. specialize (Hsrc Hc). destruct X as [(_ & _ & -> & E)|(_ & _ & -> & ->)]; lia. }
      assert (Hr' : ready (a, t) c2 pend) by (eapply ready_same; [exact Hr|congruence|congruence]).
      assert (Ho2 : old_key (ec_rc c2) (key inner)) by (eapply old_key_le; eauto).
      destruct (Hk' _ _ _ _ _ _ _ _ G1 Ho2 Hs' Hr') as ((L3 & (lr & E1 & E2) & Hp & leak & Sc2 & Fl) & R2).
      assert (Sn : forall m, escans i1 m = m) by (destruct X as [(_ & -> & _)|(_ & -> & _)]; reflexivity).
      split.
      { split; [lia|]. split; [exists lr; split; [congruence|assumption]|]. split; [intros n; rewrite Hp; congruence|].
        exists leak. split; [intros m; rewrite !escans_app, Sc1, Sn, Sc2; apply ends_scan|].
        eapply Forall_impl; [|exact Fl]. cbn. intros nr (? & ?). split; [assumption|lia]. }
      intros m st en A v HI HA Hv Hlt HW.
      match goal with |- esim (?x ++ ?y ++ ?z ++ ?e) _ _ _ _ _ _ _ _ => replace (x ++ y ++ z ++ e) with (x ++ (y ++ z) ++ e) by (rewrite <- !app_assoc; reflexivity) end.
      eapply R1 with (Q := lenq (a, t) c3 pend); [exact HI|apply HA1; exact HA|exact HW|lia| |].
      2:{ intros vn new new0 K K0 Hq Hpl. specialize (Hq Hpl) as (r & Er & Ea). exists r. split; [assumption|]. rewrite assoc_app, Ea. reflexivity. }
      intros new g K Gk W.
      assert (HI1 : einv (ec_rc c1) m (new ++ es_regs st) en A) by (eapply einv_ext; eauto).
      assert (Hlt1 : regs_lt (ec_rc c1) (new ++ es_regs st)) by (eapply regs_lt_app; eauto).
      destruct X as [(Ec & -> & -> & E)|(Ec & -> & -> & ->)]; rewrite Ec.
      + assert (Hc : is_cont t = false).
        { apply andb_true_iff in Ec as (_ & Ec). unfold opt_leaf in Ec. destruct (is_cont t); [discriminate|reflexivity]. }
        assert (Hv1 : assoc src (new ++ es_regs st) = Some v) by (eapply assoc_old; [apply Hsrc; exact Hc|auto|exact K]).
        assert (En : forall m, erun m (NNullCheck src (ec_rc c1)) {| es_regs := new ++ es_regs st; es_snk := g ++ es_snk st |} =
          let! x := unwrap_opt v in Ok (ENext {| es_regs := (ec_rc c1, x) :: new ++ es_regs st; es_snk := g ++ es_snk st |})).
        { intros m'. cbn [Encode.erun]. unfold ereg. cbn [es_regs]. rewrite Hv1. cbn [of_some bind]. destruct v as [| | | | | |o| | | | | |]; try reflexivity. destruct o; reflexivity. }
        apply esim_bind_err.
        { destruct (unwrap_opt v); auto; rewrite eseq_app, eseq_one, En; reflexivity. }
        intros x Ex. rewrite Ex in En. cbn [bind] in En.
        eapply (esim_after [NNullCheck src (ec_rc c1)] [(ec_rc c1, x)] _ (key inner) (ec_rc c1) (ec_rc c2) (ec_rc c3)) with (Q := lenq (a, t) c3 pend).
        * rewrite eseq_one, En. reflexivity.
        * constructor; [cbn; lia|constructor].
        * lia.
        * lia.
        * cbn [escans escan es_regs es_snk app].
          eapply (R2 m {| es_regs := (ec_rc c1, x) :: new ++ es_regs st; es_snk := g ++ es_snk st |} en A); cbn [es_regs es_snk].
          -- eapply einv_cons; [exact HI1|lia].
          -- exact HA.
          -- intros _. cbn. rewrite Nat.eqb_refl. reflexivity.
          -- constructor; [cbn; lia|]. eapply regs_lt_mono; [exact Hlt1|lia].
          -- exact W.
        * intros vn n1 K1 Hq Hpl. specialize (Hq Hpl) as (r & Er & Ea). exists r. split; [assumption|]. rewrite assoc_app, Ea. reflexivity.
      + cbn [bind app].
        eapply (R2 m {| es_regs := new ++ es_regs st; es_snk := g ++ es_snk st |} en A); cbn [es_regs es_snk]; try assumption.
        intros Hc. eapply assoc_old; [apply Hsrc; exact Hc|auto|exact K].
  Qed.

  Definition fspec (f : fattr * ty) (k : target -> nat -> bool -> egen unit) (vis : list string) : Prop :=
    forall tgt src cond c is u c' pend, k tgt src cond c = Some (is, u, c') -> old_key (ec_rc c) (key tgt) ->
      (is_cont (snd f) || fa_pad (fst f) = false -> (src < ec_rc c)%nat) -> ready f c pend ->
      edone f c c' pend is /\
      forall m st en (A : string -> Prop) v, einv (ec_rc c) m (es_regs st) en A ->
        (forall n, In n (vis ++ leaf_names (flatten_ty (snd f))) -> A n) ->
        (is_cont (snd f) || fa_pad (fst f) = false -> assoc src (es_regs st) = Some v) -> regs_lt (ec_rc c) (es_regs st) -> writable (key tgt) (es_snk st) ->
        esim is (key tgt) (ec_rc c) (ec_rc c') m st (es_snk st) (se_field (fst f, snd f, se_complex (fst f) (snd f)) en v cond pend)
          (fun vn new => fa_cond (fst f) = None -> lenq f c' pend vn new).

  Lemma erun_cond m c body st : erun m (NCond c body) st =
        (let! cv := ereg c st in
        let! b := bool_of cv in
        if b then
          let! o := eseq m body st in
          match o with ENext st' => Ok (ENext (eleave st st')) | EBrk st' => Ok (EBrk st') end
        else Ok (ENext st)).
  Proof. reflexivity. Qed.
  Lemma escan_cond m c l : escan (NCond c l) m = escans l m.
  Proof. reflexivity. Qed.

  (** A block whose effects other than what it wrote are forgotten. *)
  Lemma eleave_wr t b st base' (new : regs) (g : sinks) : wr t b (es_snk st) = Some base' ->
    eleave st {| es_regs := new ++ es_regs st; es_snk := g ++ base' |} = {| es_regs := es_regs st; es_snk := base' |}.
  Proof. intros W. unfold eleave. cbn [es_regs es_snk]. rewrite !truncate_app; [reflexivity|apply (wr_length _ _ _ _ W)|reflexivity]. Qed.

  Lemma enc_field_ok a t k vis : (fa_pad a = false -> kspec (a, t) k (se_complex a t) vis) -> attr_ok vis (a, t) = true -> ewf vis t = true ->
    fspec (a, t) (fun tgt src cond => enc_field k a t (is_cont t) tgt src cond) vis.
  Proof.
    intros Hk Ha Hwf tgt src cond c is u c' pend H Ho Hsrc Hr. cbn [fst snd] in *. unfold enc_field, enc_cond in H.
    unfold attr_ok in Ha. cbn [fst snd] in Ha. apply andb_true_iff in Ha as (Ha & _).
    pose proof (subset_incl _ _ Ha) as Hi.
    assert (Hxs : subset (xs_fv (fa_xs a)) vis = true).
    { unfold subset in *. rewrite forallb_app in Ha. apply andb_true_iff in Ha. tauto. }
    unfold Spec.se_field. destruct (fa_cond a) as [e|] eqn:Ec.
    - ei H o c1 G. ei H r c2 G1. ert G1. apply eeval_spec in H as (-> & -> & E1 & E2 & E3).
      ei G bu c3 G1. destruct bu as [body bu]. apply block_some in G as (b1 & u1 & G & Eq & ->). injection Eq as -> ->. etell G1.
      rewrite app_nil_r. cbn [app].
      assert (Ho1 : old_key (ec_rc c2) (key tgt)) by (eapply old_key_le; [exact Ho|lia]).
      assert (Hr1 : ready (a, t) c2 pend) by (eapply ready_same; eauto).
      assert (Hsrc1 : is_cont t || fa_pad a = false -> (src < ec_rc c2)%nat) by (intros X; specialize (Hsrc X); lia).
      destruct (enc_uncond_ok a t k vis (is_cont t) true Hk Hxs Hwf (or_introl eq_refl) _ _ _ _ _ _ _ _ G Ho1 Hsrc1 Hr1)
        as ((L3 & (lr & R1 & R2) & Hp & leak & Sc2 & Fl) & R).
      split.
      { split; [lia|]. split; [exists lr; split; [congruence|assumption]|]. split; [intros n; rewrite Hp; congruence|].
        exists leak. split; [intros m; cbn [escans]; rewrite escan_cond; apply Sc2|].
        eapply Forall_impl; [|exact Fl]. cbn. intros nr (? & ?). split; [assumption|lia]. }
      intros m st en A v HI HA Hv Hlt HW.
      eapply esim_eval with (Q := any).
      + exact HI.
      + intros n Hn. apply HA. apply in_app_iff. left. apply Hi. apply in_app_iff. left. exact Hn.
      + lia.
      + intros cv. set (st1 := {| es_regs := (ec_rc c, cv) :: es_regs st; es_snk := es_snk st |}).
        assert (Er : erun m (NCond (ec_rc c) b1) st1 = let! b := bool_of cv in
          if b then let! o := eseq m b1 st1 in match o with ENext st' => Ok (ENext (eleave st1 st')) | EBrk st' => Ok (EBrk st') end else Ok (ENext st1)).
        { rewrite erun_cond. unfold ereg. cbn [st1 es_regs assoc]. rewrite Nat.eqb_refl. reflexivity. }
        apply esim_bind_err.
        { destruct cv; try exact I; cbn [bool_of]; rewrite eseq_one, Er; reflexivity. }
        intros b Eb. rewrite Eb in Er. cbn [bind] in Er. destruct b.
        * assert (HI1 : einv (ec_rc c2) m (es_regs st1) en A) by (apply einv_cons; [exact HI|lia]). specialize (R m st1 en A v HI1 HA).
          assert (Hv1 : is_cont t || fa_pad a = false -> assoc src (es_regs st1) = Some v).
          { intros X. cbn. specialize (Hsrc X). destruct (Nat.eqb_spec src (ec_rc c)); [lia|auto]. }
          assert (Hlt1 : regs_lt (ec_rc c2) (es_regs st1)) by (constructor; [cbn; lia|eapply regs_lt_mono; [exact Hlt|lia]]).
          specialize (R Hv1 Hlt1 HW). cbn [andb] in R. unfold opt_leaf in R.
          change (let! v0 := (if negb (is_cont t) && negb (is_some (fa_calc a)) && negb (fa_pad a) then unwrap_opt v else Ok v)
                  in let! (b, vs) := se_complex a t en v0 true pend in Ok (b, (vs, Datatypes.length b)))
            with (let! v0 := (if negb (is_cont t) && negb (is_some (fa_calc a)) && negb (fa_pad a) then unwrap_opt v else Ok v) in with_len (se_complex a t en v0 true pend)).
          unfold esim in *. rewrite eseq_one, Er.
          destruct (se_xs en (fa_xs a) _) as [[b [vs n]]| | |]; cbn [bind]; try (rewrite R; reflexivity).
          destruct R as (new & g & base' & K & Gk & W & E & _). rewrite E. cbn [bind].
          exists [], [], base'. split; [constructor|]. split; [constructor|]. split; [exact W|]. split; [|exact I].
          cbn [app]. rewrite (eleave_wr (key tgt) b st1 base' new g W). reflexivity.
        * unfold esim. rewrite eseq_one, Er. exists [], [], (es_snk st). split; [constructor|]. split; [constructor|]. split; [exact HW|].
          split; [reflexivity|exact I].
      + intros ? ? ? ? ? X. discriminate X.
    - ei H o c1 G. ert H. cbn [app] in *.
      destruct (enc_uncond_ok a t k vis (is_cont t) false Hk Hxs Hwf (or_introl eq_refl) _ _ _ _ _ _ _ _ G Ho Hsrc Hr) as (D & R).
      split; [exact D|]. intros m st en A v HI HA Hv Hlt HW.
      specialize (R m st en A v HI HA Hv Hlt HW). cbn [andb] in R.
      eapply esim_weaken; [exact R|lia|lia|]. intros vn new K Hq _. exact Hq.
  Qed.

  (** *** Items of a container *)
  Lemma se_items_acc mm its : forall en cond out vs0 wt,
    Spec.se_items w inputs mm its en cond out vs0 wt
    = let! (b, vs) := Spec.se_items w inputs mm its en cond [] [] wt in Ok (out ++ b, vs0 ++ vs).
  Proof.
    induction its as [|[[a t] k] its IH]; intros en cond out vs0 wt; cbn [Spec.se_items].
    - destruct wt; cbn [bind]; [reflexivity|]. rewrite !app_nil_r. reflexivity.
    - set (f := (a, t, k)).
      set (v0 := if is_cont t || fa_pad a then Ok (VBool false) else of_some (lookup (fa_name a) en)).
      match goal with |- match fa_calc a with Some e => match blen_calls e with _ => _ end | None => ?pl1 end = bind (match fa_calc a with Some e => _ | None => ?pl2 end) _ =>
        assert (P : pl1 = let! (b, vs) := pl2 in Ok (out ++ b, vs0 ++ vs)) end.
      { rewrite bind_assoc. apply bind_ext. intros v. rewrite bind_assoc. apply bind_ext. intros [b [vs n]].
        destruct wt as [x|].
        - destruct (String.eqb (wt_on x) (fa_name a) && is_some (cont_len t)).
          + rewrite bind_assoc. apply bind_ext. intros e'. rewrite bind_assoc. apply bind_ext. intros cv.
            rewrite bind_assoc. apply bind_ext. intros [b0 [vs1 n1]].
            assert (N : forall en'', Spec.se_items w inputs mm its en'' cond (out ++ b0 ++ wt_bytes x ++ b) (vs0 ++ vs1 ++ wt_vals x ++ vs) None
              = let! (b, vs) := Spec.se_items w inputs mm its en'' cond ([] ++ b0 ++ wt_bytes x ++ b) ([] ++ vs1 ++ wt_vals x ++ vs) None in Ok (out ++ b, vs0 ++ vs)).
            { intros en''. rewrite IH. cbn [app]. rewrite (IH en'' cond (b0 ++ _)). rewrite bind_assoc. apply bind_ext. intros [b2 vs2].
              cbn [bind]. rewrite <- !app_assoc. reflexivity. }
            destruct mm as [g|], (cont_len t) as [le|]; try apply N.
            rewrite bind_assoc. apply bind_ext. intros lv. rewrite bind_assoc. apply bind_ext. intros lim.
            destruct (lim =? n)%nat; [apply N|reflexivity].
          + apply IH.
        - rewrite IH. cbn [app]. rewrite (IH en cond b). rewrite bind_assoc. apply bind_ext. intros [b2 vs2]. cbn [bind].
          rewrite <- !app_assoc. reflexivity. }
      destruct (fa_calc a) as [e|]; [|exact P].
      destruct (blen_calls e) as [[|c [|]]|]; [exact P| |reflexivity|reflexivity].
      destruct wt; [reflexivity|]. apply IH.
  Qed.

  Lemma esim_pre {A} code1 code2 t lo hi m st st1 new0 base (r : res ioerr (list Z * A)) :
    eseq m code1 st = Ok (ENext st1) -> es_regs st1 = new0 ++ es_regs st -> keys_in lo hi new0 ->
    esim code2 t lo hi (escans code1 m) st1 base r any -> esim (code1 ++ code2) t lo hi m st base r any.
  Proof.
    intros E Er K H. unfold esim in *. rewrite !eseq_app, !E. cbn [bind]. destruct r as [[b a]| | |]; try exact H.
    destruct H as (new & g & base' & H1 & H2 & H3 & H4 & _). exists (new ++ new0), g, base'.
    split; [apply keys_in_app; assumption|]. do 2 (split; [assumption|]). split; [|exact I]. rewrite H4, Er, <- app_assoc. reflexivity.
  Qed.
  Lemma esim_preq {A} code1 code2 t lo hi m st st1 new0 base (r : res ioerr (list Z * A)) (Q : A -> regs -> Prop) :
    eseq m code1 st = Ok (ENext st1) -> es_regs st1 = new0 ++ es_regs st -> keys_in lo hi new0 ->
    esim code2 t lo hi (escans code1 m) st1 base r (fun a new => Q a (new ++ new0)) -> esim (code1 ++ code2) t lo hi m st base r Q.
  Proof.
    intros E Er K H. unfold esim in *. rewrite !eseq_app, !E. cbn [bind]. destruct r as [[b a]| | |]; try exact H.
    destruct H as (new & g & base' & H1 & H2 & H3 & H4 & HQ). exists (new ++ new0), g, base'.
    split; [apply keys_in_app; assumption|]. do 2 (split; [assumption|]). split; [|exact HQ]. rewrite H4, Er, <- app_assoc. reflexivity.
  Qed.
  Lemma esim_rebase {A} code t lo lo' hi m st G base (r : res ioerr (list Z * A)) Q :
    esim code t lo hi m st (G ++ base) r Q -> skeys_in lo' lo G -> old_key lo' t -> (lo' <= lo)%nat -> (lo <= hi)%nat -> esim code t lo' hi m st base r Q.
  Proof.
    intros H HG Ho L L2. unfold esim in *. destruct r as [[b a]| | |]; try exact H.
    destruct H as (new & g & base' & H1 & H2 & H3 & H4 & H5). rewrite (wr_old lo' lo t b G base Ho HG) in H3.
    destruct (wr t b base) as [b2|] eqn:W; [|discriminate]. injection H3 as <-.
    exists new, (g ++ G), b2. split; [eapply keys_in_weaken; eauto|]. split.
    { apply skeys_in_app; eapply skeys_in_weaken; eauto. }
    split; [reflexivity|]. rewrite <- app_assoc. auto.
  Qed.
  (** Something was written before. *)
  Lemma esim_wrote {A} code t lo hi m st base base1 b1 (r : res ioerr (list Z * A)) Q :
    wr t b1 base = Some base1 -> esim code t lo hi m st base1 r Q -> esim code t lo hi m st base (let! (b, a) := r in Ok (b1 ++ b, a)) Q.
  Proof.
    intros W H. unfold esim in *. destruct r as [[b a]| | |]; cbn [bind]; try exact H.
    destruct H as (new & g & base' & H1 & H2 & H3 & H4 & H5). exists new, g, base'. rewrite <- (wr_app _ _ _ _ _ W). auto 6.
  Qed.

  Definition gfield (f : fattr * ty) (cond : bool) : target -> nat -> egen unit :=
    fun tg sr => enc_field (enc_complex p rf false (fst f) (snd f)) (fst f) (snd f) (is_cont (snd f)) tg sr cond.
  Definition gitem (f : fattr * ty) : eitem := (fst f, snd f, enc_complex p rf false (fst f) (snd f)).
  Notation sitem := (fun f => (fst f, snd f, se_complex (fst f) (snd f))).
  Definition ispec (vis : list string) (f : fattr * ty) : Prop :=
    fspec f (fun tgt src cond => gfield f cond tgt src) vis.

  (** The first half of an item: fetch the value and encode the field. *)
  Lemma item_ok vis f : ispec vis f -> (leaf f = true -> In (fa_name (fst f)) vis) ->
    forall real src cond c is u c' pend,
    (if is_cont (snd f) || fa_pad (fst f) then gfield f cond real src
     else do r <- efresh; do _ <- tell (NGetRef r (fa_name (fst f))); gfield f cond real r) c = Some (is, u, c') ->
    old_key (ec_rc c) (key real) -> ready f c pend ->
    edone f c c' pend is /\
    forall m st en (A : string -> Prop), einv (ec_rc c) m (es_regs st) en A ->
        (forall n, In n (vis ++ leaf_names (flatten_ty (snd f))) -> A n) ->
        regs_lt (ec_rc c) (es_regs st) -> writable (key real) (es_snk st) ->
        esim is (key real) (ec_rc c) (ec_rc c') m st (es_snk st)
          (let! v := (if is_cont (snd f) || fa_pad (fst f) then Ok (VBool false) else of_some (lookup (fa_name (fst f)) en)) in
           se_field (sitem f) en v cond pend)
          (fun vn new => fa_cond (fst f) = None -> lenq f c' pend vn new).
  Proof.
    intros Hf Hl real src cond c is u c' pend H Ho Hr. destruct f as [a t]. cbn [fst snd] in *.
    destruct (is_cont t || fa_pad a) eqn:E.
    - destruct (Hf _ _ _ _ _ _ _ _ H Ho ltac:(cbn; congruence) Hr) as (D & R). split; [exact D|].
      intros m st en A HI HA Hlt HW. cbn [bind]. eapply (R m st en A); try assumption. cbn. congruence.
    - ei H r c1 G. apply efresh_spec in H as (-> & -> & F1 & F2 & F3). ei G t1 c2 G1. etell G.
      assert (Hr1 : ready (a, t) c1 pend) by (eapply ready_same; eauto).
      assert (Ho1 : old_key (ec_rc c1) (key real)) by (eapply old_key_le; [exact Ho|lia]).
      destruct (Hf _ _ _ _ _ _ _ _ G1 Ho1 ltac:(intros; lia) Hr1) as ((L3 & (lr & R1 & R2) & Hp & leak & Sc2 & Fl) & R). cbn [fst snd] in *.
      split.
      { split; [lia|]. split; [exists lr; split; [congruence|assumption]|]. split; [intros n; rewrite Hp, F3; reflexivity|].
        exists leak. split; [intros m; apply Sc2|].
        eapply Forall_impl; [|exact Fl]. cbn. intros nr (? & ?). split; [assumption|lia]. }
      intros m st en A HI HA Hlt HW. cbn [app].
      assert (Hn : In (fa_name a) vis) by (apply Hl; unfold leaf; cbn; rewrite orb_comm, E; reflexivity).
      assert (Hv : A (fa_name a)) by (apply HA; apply in_app_iff; auto).
      destruct HI as (HI1 & HI2). pose proof (HI2 _ Hv) as Ev.
      assert (Er : erun m (NGetRef (ec_rc c) (fa_name a)) st = let! v := of_some (lookup (fa_name a) en) in Ok (ENext (elet (ec_rc c) v st))).
      { cbn [Encode.erun]. rewrite Ev. destruct (lookup (fa_name a) m) as [q|]; cbn [of_some bind]; [|reflexivity]. unfold ereg. reflexivity. }
      apply esim_bind_err.
      { destruct (of_some (lookup (fa_name a) en)); try exact I; rewrite eseq_cons, Er; reflexivity. }
      intros v Hv1. rewrite Hv1 in Er. cbn [bind] in Er.
      match goal with |- esim (?x :: ?y) _ _ _ _ _ _ _ _ => change (x :: y) with ([x] ++ y) end.
      eapply (esim_after [_] [(ec_rc c, v)] _ (key real) (ec_rc c) (ec_rc c1) (ec_rc c'))
        with (Q := fun vn new => fa_cond a = None -> lenq (a, t) c' pend vn new).
      + rewrite eseq_one, Er. reflexivity.
      + constructor; [cbn; lia|constructor].
      + lia.
      + lia.
      + cbn [escans escan app].
        eapply (R m {| es_regs := (ec_rc c, v) :: es_regs st; es_snk := es_snk st |} en A); cbn [es_regs es_snk].
        * apply einv_cons; [split; assumption|lia].
        * exact HA.
        * intros _. cbn. rewrite Nat.eqb_refl. reflexivity.
        * constructor; [cbn; lia|]. eapply regs_lt_mono; [exact Hlt|lia].
        * exact HW.
      + intros vn new K Hq Hc Hpl. specialize (Hq Hc Hpl) as (r & Er1 & Ea). exists r. split; [assumption|]. rewrite assoc_app, Ea. reflexivity.
  Qed.

  Record wait := { wa_b : nat; wa_f : fattr * ty; wa_e : expr; wa_e' : expr; wa_c : string }.
  Definition wait_ok (vis : list string) (x : wait) : Prop :=
    ispec vis (wa_f x) /\ is_cont (snd (wa_f x)) = false /\ fa_pad (fst (wa_f x)) = false /\ fa_calc (fst (wa_f x)) = Some (wa_e x)
    /\ blen_calls (wa_e x) = Some [wa_c x] /\ rewrite_blen [wa_c x] (wa_e x) = Some (wa_e' x)
    /\ subset (fv (wa_e' x)) (blen_name (wa_c x) :: vis) = true.
  Definition auto_of (cond : bool) (x : wait) : auto := (wa_b x, fst (wa_f x), gfield (wa_f x) cond).

  Definition flush_ref (x : wait) (en : env) (cond : bool) (n : Z) : res ioerr (list Z * (vals * env)) :=
    let en' := (blen_name (wa_c x), VInt U64 n) :: en in
    let! cv := ev en' (wa_e' x) in
    let en'' := (fa_name (fst (wa_f x)), cv) :: en' in
    let! (b0, (vs1, _)) := se_field (sitem (wa_f x)) en'' cv cond false in
    Ok (b0, (vs1, en'')).

  Lemma flush_ok vis cond x buf c is autos' c' rl : wait_ok vis x ->
    flush_autos 1 [auto_of cond x] buf c = Some (is, autos', c') -> lookup (wa_c x) (ec_resolved c) = Some rl -> (rl < ec_rc c)%nat ->
    old_key (wa_b x) (key buf) -> (wa_b x < ec_rc c)%nat ->
    autos' = [] /\ (ec_rc c <= ec_rc c')%nat /\ ec_resolved c' = ec_resolved c /\ (forall n, mem n (ec_pending c') = mem n (ec_pending c)) /\
    (exists leak, (forall m, escans is m = leak ++ m) /\
       Forall (fun nr => In (fst nr) [fa_name (fst (wa_f x)); blen_name (wa_c x)] /\ (snd nr < ec_rc c')%nat) leak) /\
    forall m st en (A : string -> Prop) n wbuf snk0 G, einv (ec_rc c) m (es_regs st) en A -> (forall n, In n vis -> A n) ->
      assoc rl (es_regs st) = Some (VInt U64 n) -> regs_lt (ec_rc c) (es_regs st) ->
      es_snk st = G ++ (Some (wa_b x), KBuf wbuf) :: snk0 -> skeys_in (S (wa_b x)) (ec_rc c) G -> writable (key buf) snk0 ->
      esim is (key buf) (wa_b x) (ec_rc c') m st snk0
        (let! (b0, r) := flush_ref x en cond n in Ok (b0 ++ wbuf, r))
        (fun r new => einv (ec_rc c') (escans is m) (new ++ es_regs st) (snd r) A /\ regs_lt (ec_rc c') (new ++ es_regs st)).
  Proof.
    intros (Hf & Hc & Hpd & Ee & Eb & Erw & Hsub) H Hrl Lrl Ho Lb.
    unfold auto_of in H. cbn [flush_autos nth_error] in H. rewrite Ee, Eb in H.
    ei H ok c1 G. cbn [all_resolved] in H. ei H o c2 G1. unfold eresolved in H. injection H as <- <- <-.
    ei G1 b1 c3 G2. ert G1. ert G2. rewrite Hrl in G. cbn [app] in *.
    ei G r c4 G1. unfold eval_blen in G. ei G t1 c5 G2. cbn [set_blens] in G. ei G o c6 G3. unfold eresolved in G. injection G as <- <- <-.
    rewrite Hrl in G3. ei G3 t2 c7 G4. etell G3. ert G4. rewrite Erw in G2.
    ei G2 r1 c8 G3. apply eeval_spec in G2 as (-> & -> & E1 & E2 & E3). ei G3 t3 c9 G4. etell G3. ert G4.
    cbn [remove_nth nth_error] in G1.
    ei G1 t4 c10 G2. ei G2 t5 c11 G3. etell G2. ert G3.
    assert (Hrd : ready (wa_f x) c8 false).
    { unfold ready, cnames. rewrite Hc. split; [intros ? []|]. split; [discriminate|]. split; [|constructor].
      destruct (wa_f x) as [a t]. cbn [snd] in *. destruct t; try discriminate Hc; intros ? []. }
    assert (Ho1 : old_key (ec_rc c8) (key buf)) by (eapply old_key_le; [exact Ho|lia]).
    destruct (Hf _ _ _ _ _ _ _ _ G1 Ho1 ltac:(intros; lia) Hrd) as ((L3 & (lr & R1 & R2 & _) & Hp & leak & Sc2 & Fl) & R).
    assert (Hlr : lr = []).
    { unfold cnames in R2. rewrite Hc in R2. destruct lr as [|[k v] lr]; [reflexivity|]. exfalso. apply (R2 k). left. reflexivity. }
    subst lr.
    assert (Hleak : leak = []).
    { destruct leak as [|[k v] leak]; [reflexivity|]. exfalso. inversion Fl as [|? ? [F1 _] _]; subst.
      destruct (wa_f x) as [a t]. cbn [snd fst] in *. destruct t; try discriminate Hc; destruct F1. }
    subst leak. cbn [app] in *.
    set (name0 := fa_name (fst (wa_f x))) in *.
    assert (Scan : forall m, escans ([NSetRef (blen_name (wa_c x)) rl; NEval (ec_rc c) (wa_e' x); NSetRef name0 (ec_rc c)] ++ i ++ [NEmitBuf buf (wa_b x)]) m
      = (name0, ec_rc c) :: (blen_name (wa_c x), rl) :: m).
    { intros m. rewrite !escans_app. cbn [escans escan]. rewrite Sc2. reflexivity. }
    cbn [app] in *.
    split; [reflexivity|]. split; [lia|]. split; [congruence|].
    split. { intros n. rewrite Hp, E3. cbn. apply andb_true_r. }
    split.
    { exists [(name0, ec_rc c); (blen_name (wa_c x), rl)]. split; [intros m; cbn [app]; apply Scan|].
      repeat constructor; cbn; auto; lia. }
    intros m st en A n wbuf snk0 G0 HI HA Hl Hlt Hsnk HG HW.
    unfold flush_ref. rewrite bind_assoc.
    set (en' := (blen_name (wa_c x), VInt U64 n) :: en).
    assert (HI1 : einv (ec_rc c) ((blen_name (wa_c x), rl) :: m) (es_regs st) en' (fun y => A y \/ y = blen_name (wa_c x))) by (apply einv_set; assumption).
    assert (HA1 : forall y, In y (fv (wa_e' x)) -> A y \/ y = blen_name (wa_c x)).
    { intros y Hy. apply (subset_incl _ _ Hsub) in Hy as [<-|Hy]; [auto|left; auto]. }
    assert (Es : forall code m, eseq m (NSetRef (blen_name (wa_c x)) rl :: code) st = eseq ((blen_name (wa_c x), rl) :: m) code st) by reflexivity.
    match goal with |- esim ?cc _ _ _ _ _ _ _ _ => set (full := cc) in * end.
    assert (Hev : forall code, eseq ((blen_name (wa_c x), rl) :: m) (NEval (ec_rc c) (wa_e' x) :: code) st =
      let! cv := ev en' (wa_e' x) in eseq ((blen_name (wa_c x), rl) :: m) code (elet (ec_rc c) cv st)).
    { intros code. change (NEval (ec_rc c) (wa_e' x) :: code) with ([NEval (ec_rc c) (wa_e' x)] ++ code).
      rewrite eseq_app, (eeval_run (wa_e' x) _ _ st en' _ _ HI1 HA1). destruct (ev en' (wa_e' x)); reflexivity. }
    apply esim_bind_err.
    { destruct (ev en' (wa_e' x)); try exact I; unfold full; rewrite Es, Hev; reflexivity. }
    intros cv Ecv. fold name0. set (en'' := (name0, cv) :: en').
    assert (Efull : eseq m full st = eseq ((name0, ec_rc c) :: (blen_name (wa_c x), rl) :: m) (i ++ [NEmitBuf buf (wa_b x)]) (elet (ec_rc c) cv st)).
    { unfold full. rewrite Es, Hev, Ecv. reflexivity. }
    set (m2 := (name0, ec_rc c) :: (blen_name (wa_c x), rl) :: m) in *.
    assert (HI2 : einv (ec_rc c8) m2 (es_regs (elet (ec_rc c) cv st)) en'' A).
    { rewrite E1. eapply einv_sub; [apply (einv_set (S (ec_rc c)) _ _ en' (fun y => A y \/ y = blen_name (wa_c x)) name0 (ec_rc c) cv); [apply einv_cons; [exact HI1|lia]| |lia]|].
      - cbn. rewrite Nat.eqb_refl. reflexivity.
      - intros y Hy. left. left. exact Hy. }
    assert (HA2 : forall y, In y (vis ++ leaf_names (flatten_ty (snd (wa_f x)))) -> A y).
    { intros y Hy. apply in_app_iff in Hy as [Hy|Hy]; [auto|]. destruct (wa_f x) as [a t]. cbn [snd] in *. destruct t; try discriminate Hc; destruct Hy. }
    assert (Hlt2 : regs_lt (ec_rc c8) (es_regs (elet (ec_rc c) cv st))).
    { constructor; [cbn; lia|]. eapply regs_lt_mono; [exact Hlt|lia]. }
    assert (Hsk : skeys_in (wa_b x) (ec_rc c) (G0 ++ [(Some (wa_b x), KBuf wbuf)])).
    { apply skeys_in_app; [eapply skeys_in_weaken; [exact HG| |]; lia|]. skc. }
    assert (HW2 : writable (key buf) (es_snk (elet (ec_rc c) cv st))).
    { cbn [elet es_snk]. rewrite Hsnk. change ((Some (wa_b x), KBuf wbuf) :: snk0) with ([(Some (wa_b x), KBuf wbuf)] ++ snk0). rewrite app_assoc.
      eapply writable_old; [exact Ho|exact Hsk|exact HW]. }
    specialize (R m2 (elet (ec_rc c) cv st) en'' A cv HI2 HA2). cbn [es_regs elet] in R. cbn [assoc] in R. rewrite Nat.eqb_refl in R.
    specialize (R ltac:(reflexivity) Hlt2 HW2). unfold esim in R |- *. rewrite !Efull, !eseq_app.
    destruct (se_field _ en'' cv cond false) as [[b0 [vs1 n1]]| | |]; cbn [bind]; try (rewrite R; reflexivity).
    destruct R as (new & g & base' & K & Gk & W & E & _). rewrite E. cbn [bind].
    cbn [es_snk elet] in W. rewrite Hsnk in W.
    change (G0 ++ (Some (wa_b x), KBuf wbuf) :: snk0) with (G0 ++ [(Some (wa_b x), KBuf wbuf)] ++ snk0) in W. rewrite app_assoc in W.
    rewrite (wr_old (wa_b x) (ec_rc c) _ _ _ snk0 Ho Hsk) in W. destruct (wr (key buf) b0 snk0) as [s1|] eqn:W1; [|discriminate]. injection W as <-.
    rewrite eseq_one. cbn [Encode.erun es_snk].
    assert (Hso : sink_of (Some (wa_b x)) (g ++ (G0 ++ [(Some (wa_b x), KBuf wbuf)]) ++ s1) = Some (KBuf wbuf)).
    { rewrite (sink_old (ec_rc c8) (ec_rc c10)); [|apply old_some; lia|exact Gk]. rewrite <- app_assoc.
      rewrite (sink_old (S (wa_b x)) (ec_rc c)); [|apply old_some; lia|exact HG]. cbn. rewrite Nat.eqb_refl. reflexivity. }
    rewrite Hso. unfold ewrite. cbn [es_snk es_regs].
    rewrite (wr_old (ec_rc c8) (ec_rc c10)); [|exact Ho1|exact Gk].
    rewrite (wr_old (wa_b x) (ec_rc c)); [|exact Ho|exact Hsk].
    destruct (writable_wr _ _ wbuf (wr_writable _ _ _ _ W1)) as (s2 & W2). rewrite W2. cbn [of_some bind].
    exists (new ++ [(ec_rc c, cv)]), (g ++ G0 ++ [(Some (wa_b x), KBuf wbuf)]), s2.
    rewrite <- !app_assoc. cbn [app].
    split. { apply keys_in_app; [eapply keys_in_weaken; [exact K| |]; lia|]. constructor; [cbn; lia|constructor]. }
    split. { apply skeys_in_app; [eapply skeys_in_weaken; [exact Gk| |]; lia|]. eapply skeys_in_weaken; [exact Hsk| |]; lia. }
    split; [rewrite <- (wr_app _ _ _ _ _ W1); exact W2|].
    split; [reflexivity|]. cbn [snd]. split.
    - unfold full. rewrite Scan. eapply einv_ext; [exact HI2|exact K|lia].
    - eapply (regs_lt_app _ _ _ _ K); [exact Hlt2|lia].
  Qed.

  Definition wpend (wt : option wait) (n : string) : bool := match wt with Some x => String.eqb (wa_c x) n | None => false end.
  Definition autos_of (cond : bool) (wt : option wait) : list auto := match wt with Some x => [auto_of cond x] | None => [] end.
  Definition real_of (wt : option wait) (buf : target) : target := match wt with Some x => TBuf (wa_b x) | None => buf end.
  Definition bk (items : list (fattr * ty)) (wt : option wait) (c : ectx) : Prop :=
    NoDup (all_conts items) /\
    forall n, In n (all_conts items) -> lookup n (ec_resolved c) = None /\ mem n (ec_pending c) = wpend wt n.

  Lemma auto_ok_in vis items : forall cn, auto_ok vis (Some cn) items = true ->
    exists f, In f items /\ fa_name (fst f) = cn /\ is_some (cont_len (snd f)) = true.
  Proof.
    induction items as [|[a t] items IH]; intros cn H; cbn [auto_ok] in H; [discriminate|].
    destruct (String.eqb_spec cn (fa_name a)) as [E|Hn].
    - exists (a, t). split; [left; reflexivity|]. split; [symmetry; exact E|]. cbn. destruct (is_some (cont_len t)); [reflexivity|discriminate].
    - assert (X : auto_ok vis (Some cn) items = true).
      { destruct (fa_calc a) as [e|]; [|exact H]. destruct (blen_calls e) as [[|]|]; [exact H|discriminate|discriminate]. }
      apply IH in X as (f & Hf & E). exists f. split; [right; assumption|assumption].
  Qed.
  Lemma cont_len_is_cont t : is_some (cont_len t) = true -> is_cont t = true.
  Proof. destruct t; try discriminate. reflexivity. Qed.
  Lemma auto_ok_conts vis items cn : auto_ok vis (Some cn) items = true -> In cn (all_conts items).
  Proof.
    intros H. apply auto_ok_in in H as (f & Hf & <- & E). apply in_flat_map. exists f. split; [assumption|].
    unfold cnames. rewrite (cont_len_is_cont _ E). left. reflexivity.
  Qed.

  Lemma bk_ready vis f items wt c : bk (f :: items) wt c -> auto_ok vis (option_map wa_c wt) (f :: items) = true -> ready f c (wpend wt (fa_name (fst f))).
  Proof.
    intros (ND & H) Ha. cbn [all_conts flat_map] in *. fold (all_conts items) in *. apply NoDup_app_inv in ND as (N1 & N2 & N3).
    split; [intros n Hn; apply H; apply in_app_iff; auto|]. split.
    - intros Hc. apply H. apply in_app_iff. left. unfold cnames. rewrite Hc. left. reflexivity.
    - split; [|assumption]. intros n Hn.
      assert (Hin : In n (cnames f)).
      { unfold cnames. destruct (snd f) eqn:Et; try destruct Hn. cbn [is_cont]. right. exact Hn. }
      rewrite (proj2 (H n ltac:(apply in_app_iff; auto))). destruct wt as [x|]; [|reflexivity]. cbn [wpend option_map] in *.
      apply String.eqb_neq. intros <-. apply auto_ok_in in Ha as (f' & Hf' & E & El). destruct Hf' as [<-|Hf'].
      + unfold cnames in N1. rewrite (cont_len_is_cont _ El) in N1. inversion N1; subst. congruence.
      + apply (N3 (wa_c x)); [assumption|]. apply in_flat_map. exists f'. split; [assumption|]. unfold cnames.
        rewrite (cont_len_is_cont _ El). left. assumption.
  Qed.
  Lemma bk_next f items wt wt' c c1 pend is : bk (f :: items) wt c -> edone f c c1 pend is ->
    (forall n, In n (all_conts items) -> wpend wt' n = wpend wt n && negb (pend && is_some (cont_len (snd f)) && String.eqb n (fa_name (fst f)))) ->
    bk items wt' c1.
  Proof.
    intros (ND & H) (_ & (lr & E1 & E2 & _) & Hp & _) Hw. cbn [all_conts flat_map] in *. fold (all_conts items) in *. apply NoDup_app_inv in ND as (N1 & N2 & N3).
    split; [assumption|]. intros n Hn. destruct (H n ltac:(apply in_app_iff; auto)) as (A1 & A2). split.
    - rewrite E1, lookup_app. destruct (lookup n lr) as [r|] eqn:El; [|assumption]. exfalso. apply lookup_some_in in El.
      apply (in_map fst) in El. apply E2 in El. apply (N3 n); assumption.
    - rewrite Hp, A2, Hw by assumption. reflexivity.
  Qed.

  Definition itouched (items : list (fattr * ty)) (wt : option wait) : list string :=
    leaf_names (flatten_items items) ++ map blen_name (all_conts items) ++ match wt with Some x => [fa_name (fst (wa_f x))] | None => [] end.
  Definition idone (items : list (fattr * ty)) (wt : option wait) (c c' : ectx) (is : list einstr) : Prop :=
    (ec_rc c <= ec_rc c')%nat
    /\ (exists lr, ec_resolved c' = lr ++ ec_resolved c /\ incl (map fst lr) (all_conts items))
    /\ (forall n, mem n (ec_pending c') = mem n (ec_pending c) && negb (wpend wt n))
    /\ exists leak, (forall m, escans is m = leak ++ m)
         /\ Forall (fun nr => In (fst nr) (itouched items wt) /\ (snd nr < ec_rc c')%nat) leak.
  Definition ref_wait (x : wait) (wb : list Z) (wv : vals) : waiting :=
    {| wt_on := wa_c x; wt_item := sitem (wa_f x); wt_calc := wa_e x; wt_bytes := wb; wt_vals := wv |}.
  (** The sinks while nothing, or a field, is waiting. *)
  Definition isinks (wt : option wait) (hi : nat) (wb : list Z) (snk snk0 : sinks) : Prop :=
    match wt with
    | None => snk = snk0
    | Some x => exists G, snk = G ++ (Some (wa_b x), KBuf wb) :: snk0 /\ skeys_in (S (wa_b x)) hi G
    end.
  Definition ilo (wt : option wait) (c : ectx) : nat := match wt with Some x => wa_b x | None => ec_rc c end.

  Lemma touched_in (f : fattr * ty) items wt n : In n (touched (snd f)) -> In n (itouched (f :: items) wt).
  Proof.
    unfold touched, itouched. cbn [all_conts flat_map flatten_items]. unfold leaf_names. rewrite filter_app, map_app, map_app, !in_app_iff.
    intros [H|H].
    - left. left. unfold flatten_field. destruct (snd f) eqn:E; try destruct H. cbn [is_cont]. exact H.
    - right. left. left. unfold cnames. apply in_map_iff in H as (m & <- & H). apply in_map. destruct (snd f) eqn:E; try destruct H. cbn [is_cont]. right. exact H.
  Qed.
  Lemma itouched_tail (f : fattr * ty) items wt n : In n (itouched items wt) -> In n (itouched (f :: items) wt).
  Proof.
    unfold itouched. cbn [all_conts flat_map flatten_items]. unfold leaf_names. rewrite filter_app, map_app, map_app, !in_app_iff. tauto.
  Qed.
  Lemma leaf_names_tail (f : fattr * ty) items n : In n (leaf_names (flatten_items items)) -> In n (leaf_names (flatten_items (f :: items))).
  Proof. unfold leaf_names. cbn [flatten_items flat_map]. rewrite filter_app, map_app, in_app_iff. auto. Qed.
  Lemma leaf_names_head (f : fattr * ty) items n : In n (leaf_names (flatten_ty (snd f))) -> In n (leaf_names (flatten_items (f :: items))).
  Proof.
    unfold leaf_names. cbn [flatten_items flat_map]. rewrite filter_app, map_app, in_app_iff. intros H. left.
    unfold flatten_field. destruct (snd f) eqn:E; try destruct H. cbn [is_cont]. exact H.
  Qed.

  Lemma enc_items_ok vis items : forall wt buf src cond c is u c',
    Forall (ispec vis) items -> (forall f, In f items -> leaf f = true -> In (fa_name (fst f)) vis) ->
    Forall (fun f => attr_ok vis f = true) items ->
    disj vis items = true -> auto_ok vis (option_map wa_c wt) items = true -> bk items wt c ->
    (match wt with Some x => wait_ok vis x /\ (wa_b x < ec_rc c)%nat | None => True end) -> old_key (ilo wt c) (key buf) ->
    enc_items (map gitem items) buf src cond (autos_of cond wt) c = Some (is, u, c') ->
    idone items wt c c' is /\
    forall m st en (A : string -> Prop) wb wv snk0, einv (ec_rc c) m (es_regs st) en A ->
      (forall n, In n (vis ++ leaf_names (flatten_items items)) -> A n) -> regs_lt (ec_rc c) (es_regs st) ->
      isinks wt (ec_rc c) wb (es_snk st) snk0 -> writable (key buf) snk0 ->
      esim is (key buf) (ilo wt c) (ec_rc c') m st snk0
        (se_items (map sitem items) en cond [] [] (option_map (fun x => ref_wait x wb wv) wt)) any.
  Proof.
    induction items as [|f items IH]; intros wt buf src cond c is u c' Hf Hl Hat Hd Ha Hb Hw Ho H.
    - cbn [map enc_items] in H. destruct wt as [x|]; [discriminate H|]. ert H. cbn [option_map].
      split. { split; [lia|]. split; [exists []; split; [reflexivity|intros ? []]|]. split; [intros n; cbn; rewrite andb_true_r; reflexivity|].
        exists []. split; [reflexivity|constructor]. }
      intros m st en A wb wv snk0 HI HA Hlt Hs HW. cbn [isinks] in Hs. subst snk0. cbn. exists [], [], (es_snk st). split; [constructor|]. split; [constructor|].
      split; [exact HW|]. split; [destruct st; reflexivity|exact I].
    - apply Forall_cons_iff in Hf as (Hf & Hfs). apply Forall_cons_iff in Hat as (Hat & Hats).
      pose proof (Hl f (or_introl eq_refl)) as Hlf. assert (Hls : forall f0, In f0 items -> leaf f0 = true -> In (fa_name (fst f0)) vis) by (intros; apply Hl; [right|]; assumption).
      destruct f as [a t]. cbn [disj] in Hd. apply andb_true_iff in Hd as (Hd & Hds).
      pose proof (disjoint_not _ _ Hd) as Hdis.
      pose proof (bk_ready vis _ _ _ _ Hb Ha) as Hrd. cbn [fst snd] in *.
      set (pend := wpend wt (fa_name a)) in *.
      (* a field encoded at once *)
      assert (PL : (pend = true -> is_some (cont_len t) = true /\ fa_cond a = None /\ auto_ok vis None items = true) ->
        (pend = false -> auto_ok vis (option_map wa_c wt) items = true) ->
        (do _ <- (if is_cont t || fa_pad a then gfield (a, t) cond (real_of wt buf) src
                  else do r <- efresh; do _ <- tell (NGetRef r (fa_name a)); gfield (a, t) cond (real_of wt buf) r);
         do autos <- flush_autos (List.length (autos_of cond wt)) (autos_of cond wt) buf;
         enc_items (map gitem items) buf src cond autos) c = Some (is, u, c') ->
        idone ((a, t) :: items) wt c c' is /\
        forall m st en (A : string -> Prop) wb wv snk0, einv (ec_rc c) m (es_regs st) en A ->
          (forall n, In n (vis ++ leaf_names (flatten_items ((a, t) :: items))) -> A n) -> regs_lt (ec_rc c) (es_regs st) ->
          isinks wt (ec_rc c) wb (es_snk st) snk0 -> writable (key buf) snk0 ->
          esim is (key buf) (ilo wt c) (ec_rc c') m st snk0
            (let! v := (if is_cont t || fa_pad a then Ok (VBool false) else of_some (lookup (fa_name a) en)) in
             let! (b, (vs, n)) := se_field (sitem (a, t)) en v cond pend in
             match wt with
             | None => se_items (map sitem items) en cond ([] ++ b) ([] ++ vs) None
             | Some x =>
                 if pend && is_some (cont_len t) then
                   let! (b0, (vs1, en'')) := flush_ref x en cond (Z.of_nat n) in
                   se_items (map sitem items) en'' cond ([] ++ b0 ++ wb ++ b) ([] ++ vs1 ++ wv ++ vs) None
                 else se_items (map sitem items) en cond [] [] (Some (ref_wait x (wb ++ b) (wv ++ vs)))
             end) any).
      { clear H Ha. intros Ha1 Ha2 H. ei H t1 c1 G. ei G autos c2 G1.
        assert (Hor : old_key (ec_rc c) (key (real_of wt buf))).
        { destruct wt as [x|]; cbn [real_of ilo] in *; [apply old_some; tauto|assumption]. }
        destruct (item_ok vis (a, t) Hf Hlf _ _ _ _ _ _ _ pend H Hor Hrd) as (D & R1). cbn [fst snd] in *. clear H Hf.
        pose proof D as (L1 & (lr & E1 & E2 & E3) & Hp & leak & Sc & Fl). cbn [fst snd] in *.
        assert (HAfter : forall m st en (A : string -> Prop) new, einv (ec_rc c) m (es_regs st) en A ->
          (forall n, In n (vis ++ leaf_names (flatten_items ((a, t) :: items))) -> A n) -> keys_in (ec_rc c) (ec_rc c1) new ->
          einv (ec_rc c1) (escans i m) (new ++ es_regs st) en (fun n => In n (vis ++ leaf_names (flatten_items items)))).
        { intros m st en A new HI HA K. rewrite Sc. apply einv_leak.
          - eapply einv_sub; [eapply einv_ext; [exact HI|exact K|lia]|]. intros n Hn. apply HA. rewrite in_app_iff in *. destruct Hn as [Hn|Hn]; [auto|right; apply leaf_names_tail; assumption].
          - eapply Forall_impl; [|exact Fl]. cbn. tauto.
          - intros n Hn. apply in_map_iff in Hn as (nr & <- & Hn). rewrite Forall_forall in Fl. apply Fl in Hn as (Hn & _). apply Hdis. exact Hn. }
        assert (HAin : forall (A : string -> Prop), (forall n, In n (vis ++ leaf_names (flatten_items ((a, t) :: items))) -> A n) ->
          forall n, In n (vis ++ leaf_names (flatten_ty t)) -> A n).
        { intros A HA n Hn. apply HA. rewrite in_app_iff in *. destruct Hn as [Hn|Hn]; [auto|]. right. apply (leaf_names_head (a, t)). exact Hn. }
        destruct pend eqn:Epend.
        - (* the container waited for *)
          destruct (Ha1 eq_refl) as (Hlen & Hcn & Ha). clear Ha1 Ha2. rewrite Hlen in *. cbn [andb] in *.
          destruct wt as [x|]; [|discriminate Epend]. cbn [wpend] in Epend. subst pend. apply String.eqb_eq in Epend.
          destruct Hw as (Hwt & Lb). destruct (E3 eq_refl) as (rl & Erl & Lrl).
          cbn [autos_of List.length] in G. cbn [ilo] in Ho.
          assert (Erl' : lookup (wa_c x) (ec_resolved c1) = Some rl) by (rewrite Epend; exact Erl).
          destruct (flush_ok vis cond x buf c1 _ _ _ rl Hwt G Erl' Lrl Ho ltac:(lia)) as (-> & L2 & M1 & M2 & (leak2 & Sc2 & Fl2) & R2).
          change (@nil auto) with (autos_of cond None) in G1.
          assert (Hb2 : bk items None c2).
          { assert (Hb1 : bk items None c1).
            { eapply (bk_next (a, t) items (Some x) None c c1 true); [exact Hb|exact D|]. intros n Hn. cbn [wpend fst snd]. rewrite Hlen. cbn.
              rewrite Epend, (String.eqb_sym n). destruct (String.eqb (fa_name a) n); reflexivity. }
            destruct Hb1 as (Hb1 & Hb2). split; [assumption|]. intros n Hn. rewrite M1, M2. auto. }
          destruct (IH None buf src cond c2 _ _ _ Hfs Hls Hats Hds Ha Hb2 I ltac:(cbn [ilo]; eapply old_key_le; [exact Ho|lia]) G1) as ((L3 & (lr3 & E4 & E5) & Hp3 & leak3 & Sc3 & Fl3) & R3).
          split.
          { split; [lia|]. split.
            { exists (lr3 ++ lr). split; [rewrite E4, M1, E1, app_assoc; reflexivity|]. rewrite map_app. cbn [all_conts flat_map].
              apply incl_app; [apply incl_appr; exact E5|apply incl_appl; exact E2]. }
            split. { intros n. rewrite Hp3, M2, Hp. cbn [wpend negb]. rewrite andb_true_r, Epend, (String.eqb_sym n). reflexivity. }
            exists (leak3 ++ leak2 ++ leak). split; [intros m; rewrite !escans_app, Sc, Sc2, Sc3, <- !app_assoc; reflexivity|].
            apply Forall_app. split; [|apply Forall_app; split].
            - eapply Forall_impl; [|exact Fl3]. cbn beta. intros nr (X1 & X2). split; [|lia]. apply itouched_tail.
              unfold itouched in *. rewrite !in_app_iff in *. cbn [In] in X1. tauto.
            - eapply Forall_impl; [|exact Fl2]. cbn beta. intros nr (X1 & X2). split; [|lia]. unfold itouched. rewrite !in_app_iff.
              destruct X1 as [X1|[X1|[]]]; rewrite <- X1.
              + right. right. left. reflexivity.
              + right. left. apply in_map. cbn [all_conts flat_map]. apply in_app_iff. left. unfold cnames. cbn [fst snd].
                rewrite (cont_len_is_cont _ Hlen). left. symmetry. exact Epend.
            - eapply Forall_impl; [|exact Fl]. cbn beta. intros nr (X1 & X2). split; [|lia]. apply (touched_in (a, t)). exact X1. }
          intros m st en A wb wv snk0 HI HA Hlt (G0 & Hsnk & HG) HW.
          assert (HWr : writable (key (real_of (Some x) buf)) (es_snk st)).
          { rewrite Hsnk. eapply writable_old; [|exact HG|]; [apply old_some; lia|]. unfold writable. cbn. rewrite Nat.eqb_refl, app_nil_r. reflexivity. }
          specialize (R1 m st en A HI (HAin A HA) Hlt HWr).
          rewrite <- (bind_assoc _ (fun v => se_field _ en v cond true)).
          set (r1 := let! v := _ in se_field _ en v cond true) in *.
          assert (Er1 : match r1 with Ok _ => True | Err e => eseq m (i ++ i1 ++ i2) st = Err e | Panic => eseq m (i ++ i1 ++ i2) st = Panic | Hang => eseq m (i ++ i1 ++ i2) st = Hang end).
          { unfold esim in R1. destruct r1 as [[? ?]| | |]; try exact I; rewrite eseq_app, R1; reflexivity. }
          apply esim_bind_err; [exact Er1|]. clear Er1. intros [b [vs n]] Er1. rewrite Er1 in R1. clear r1 Er1. cbn [esim] in R1.
          destruct R1 as (new & g & base' & K & Gk & W & E & Hq). destruct (Hq Hcn Hlen) as (rl' & Erl2 & Earl). cbn [fst snd] in *.
          assert (rl' = rl) by congruence. subst rl'.
          rewrite Hsnk in W. cbn [real_of key] in W. rewrite (wr_old (S (wa_b x)) (ec_rc c)) in W; [|apply old_some; lia|exact HG].
          cbn [wr] in W. rewrite key_eqb_refl in W. injection W as <-.
          set (st1 := {| es_regs := new ++ es_regs st; es_snk := g ++ G0 ++ (Some (wa_b x), KBuf (wb ++ b)) :: snk0 |}) in *.
          assert (HI1 : einv (ec_rc c1) (escans i m) (es_regs st1) en (fun n => In n (vis ++ leaf_names (flatten_items items)))) by (eapply HAfter; eassumption).
          specialize (R2 (escans i m) st1 en _ (Z.of_nat n) (wb ++ b) snk0 (g ++ G0) HI1).
          specialize (R2 ltac:(intros y Hy; apply in_app_iff; auto)). specialize (R2 ltac:(cbn [st1 es_regs]; rewrite assoc_app, Earl; reflexivity)).
          specialize (R2 ltac:(cbn [st1 es_regs]; eapply regs_lt_app; eauto)). specialize (R2 ltac:(cbn [st1 es_snk]; rewrite <- app_assoc; reflexivity)).
          specialize (R2 ltac:(apply skeys_in_app; eapply skeys_in_weaken; eauto; lia) HW).
          cbn [ilo].
          eapply (esim_pre i (i1 ++ i2) (key buf) (wa_b x) (ec_rc c') m st st1 new); [exact E|reflexivity|eapply keys_in_weaken; [exact K|lia|lia]|].
          apply esim_eq with (r := let! (b0, r) := (let! (b0, r) := flush_ref x en cond (Z.of_nat n) in Ok (b0 ++ wb ++ b, r)) in
            se_items (map sitem items) (snd r) cond ([] ++ b0) ([] ++ fst r ++ wv ++ vs) None).
          2:{ rewrite bind_assoc. apply bind_ext. intros [b0 [vs1 en'']]. reflexivity. }
          set (r2 := let! (b0, r) := flush_ref x en cond (Z.of_nat n) in Ok (b0 ++ wb ++ b, r)) in *.
          apply esim_bind_err.
          { unfold esim in R2. destruct r2 as [[? ?]| | |]; try exact I; rewrite eseq_app, R2; reflexivity. }
          intros [b0 [vs1 en'']] Er2. rewrite Er2 in R2. clear r2 Er2. cbn [esim fst snd] in *.
          destruct R2 as (new2 & g2 & base2 & K2 & Gk2 & W2 & EE2 & HI2 & Hlt2).
          set (st2 := {| es_regs := new2 ++ es_regs st1; es_snk := g2 ++ base2 |}) in *.
          eapply (esim_pre i1 i2 (key buf) (wa_b x) (ec_rc c') _ st1 st2 new2); [exact EE2|reflexivity|eapply keys_in_weaken; [exact K2|lia|lia]|].
          rewrite se_items_acc.
          assert (R3' := R3 (escans i1 (escans i m)) st2 en'' _ [] [] (es_snk st2) HI2 ltac:(intros y Hy; exact Hy) Hlt2 eq_refl).
          specialize (R3' ltac:(cbn [st2 es_snk]; eapply writable_old; [exact Ho|exact Gk2|apply (wr_writable _ _ _ _ W2)])).
          cbn [option_map ilo st2 es_snk] in R3'.
          apply (esim_rebase _ _ _ (wa_b x)) in R3'; [|exact Gk2|exact Ho|lia|lia].
          apply (esim_wrote _ _ _ _ _ _ _ _ _ _ _ W2) in R3'.
          apply (esim_map (fun a0 => vs1 ++ wv ++ vs ++ a0)) with (Q' := any) in R3'; [|intros; exact I].
          eapply esim_eq; [exact R3'|]. rewrite bind_assoc. apply bind_ext. intros [b3 vs3]. cbn [bind app]. rewrite <- !app_assoc. reflexivity.
        - (* any other field *)
          assert (Ha := Ha2 eq_refl). clear Ha1 Ha2.
          assert (Hb1 : bk items wt c1).
          { eapply (bk_next (a, t) items wt wt c c1 false); [exact Hb|exact D|]. intros n Hn. cbn. rewrite andb_true_r. reflexivity. }
          assert (Efl : i1 = [] /\ autos = autos_of cond wt /\ c2 = c1).
          { destruct wt as [x|]; cbn [autos_of List.length flush_autos] in G; [|ert G; auto].
            destruct Hw as ((_ & _ & _ & Ee & Eb & _) & _). unfold auto_of in G. cbn [nth_error] in G. rewrite Ee, Eb in G.
            ei G ok c3 G2. cbn [all_resolved] in G. ei G o c4 G3. unfold eresolved in G. injection G as <- <- <-.
            ei G3 b1 c5 G4. ert G3. ert G4. cbn [option_map] in Ha. rewrite (proj1 (proj2 Hb1 _ (auto_ok_conts _ _ _ Ha))) in G2.
            cbn [flush_autos] in G2. ert G2. auto. }
          destruct Efl as (-> & -> & ->). clear G. cbn [app].
          assert (Hw1 : match wt with Some x => wait_ok vis x /\ (wa_b x < ec_rc c1)%nat | None => True end).
          { destruct wt as [x|]; [|exact I]. destruct Hw. split; [assumption|lia]. }
          assert (Ho1 : old_key (ilo wt c1) (key buf)).
          { destruct wt as [x|]; cbn [ilo] in *; [assumption|]. eapply old_key_le; [exact Ho|lia]. }
          destruct (IH wt buf src cond c1 _ _ _ Hfs Hls Hats Hds Ha Hb1 Hw1 Ho1 G1) as ((L3 & (lr3 & E4 & E5) & Hp3 & leak3 & Sc3 & Fl3) & R3).
          split.
          { split; [lia|]. split.
            { exists (lr3 ++ lr). split; [rewrite E4, E1, app_assoc; reflexivity|]. rewrite map_app. cbn [all_conts flat_map].
              apply incl_app; [apply incl_appr; exact E5|apply incl_appl; exact E2]. }
            split. { intros n. rewrite Hp3, Hp. cbn [andb negb]. rewrite andb_true_r. reflexivity. }
            exists (leak3 ++ leak). split; [intros m; rewrite !escans_app, Sc, Sc3, <- !app_assoc; reflexivity|].
            apply Forall_app. split.
            - eapply Forall_impl; [|exact Fl3]. cbn beta. intros nr (X1 & X2). split; [|lia]. apply itouched_tail. exact X1.
            - eapply Forall_impl; [|exact Fl]. cbn beta. intros nr (X1 & X2). split; [|lia]. apply (touched_in (a, t)). exact X1. }
          intros m st en A wb wv snk0 HI HA Hlt Hsnk HW.
          assert (HWr : writable (key (real_of wt buf)) (es_snk st)).
          { destruct wt as [x|]; cbn [isinks real_of] in *.
            - destruct Hsnk as (G0 & Hsnk & HG). rewrite Hsnk. eapply writable_old; [|exact HG|]; [apply old_some; lia|]. unfold writable. cbn. rewrite Nat.eqb_refl, app_nil_r. reflexivity.
            - rewrite Hsnk. exact HW. }
          specialize (R1 m st en A HI (HAin A HA) Hlt HWr).
          rewrite <- (bind_assoc _ (fun v => se_field _ en v cond false)).
          set (r1 := let! v := _ in se_field _ en v cond false) in *.
          apply esim_bind_err.
          { unfold esim in R1. destruct r1 as [[? ?]| | |]; try exact I; rewrite eseq_app, R1; reflexivity. }
          intros [b [vs n]] Er1. rewrite Er1 in R1. clear r1 Er1. cbn [esim] in R1.
          destruct R1 as (new & g & base' & K & Gk & W & E & _). cbn [andb].
          set (st1 := {| es_regs := new ++ es_regs st; es_snk := g ++ base' |}) in *.
          assert (HI1 : einv (ec_rc c1) (escans i m) (es_regs st1) en (fun n => In n (vis ++ leaf_names (flatten_items items)))) by (eapply HAfter; eassumption).
          assert (Hlt1 : regs_lt (ec_rc c1) (es_regs st1)) by (cbn [st1 es_regs]; eapply regs_lt_app; eauto).
          destruct wt as [x|]; cbn [isinks real_of ilo option_map key] in *.
          + destruct Hsnk as (G0 & Hsnk & HG). destruct Hw as (Hwt & Lb). rewrite Hsnk in W.
            rewrite (wr_old (S (wa_b x)) (ec_rc c)) in W; [|apply old_some; lia|exact HG].
            cbn [wr] in W. rewrite key_eqb_refl in W. injection W as <-.
            eapply (esim_pre i _ (key buf) (wa_b x) (ec_rc c') m st st1 new); [exact E|reflexivity|eapply keys_in_weaken; [exact K|lia|lia]|].
            eapply (R3 (escans i m) st1 en _ (wb ++ b) (wv ++ vs) snk0 HI1); [intros y Hy; exact Hy|exact Hlt1| |exact HW].
            exists (g ++ G0). split; [cbn [st1 es_snk]; rewrite <- app_assoc; reflexivity|].
            apply skeys_in_app; eapply skeys_in_weaken; eauto; lia.
          + subst snk0.
            eapply (esim_pre i _ (key buf) (ec_rc c) (ec_rc c') m st st1 new); [exact E|reflexivity|eapply keys_in_weaken; [exact K|lia|lia]|].
            rewrite se_items_acc.
            assert (R3' := R3 (escans i m) st1 en _ [] [] (es_snk st1) HI1 ltac:(intros y Hy; exact Hy) Hlt1 eq_refl).
            specialize (R3' ltac:(cbn [st1 es_snk]; eapply writable_old; [exact Ho|exact Gk|apply (wr_writable _ _ _ _ W)])).
            cbn [st1 es_snk] in R3'.
            apply (esim_rebase _ _ _ (ec_rc c)) in R3'; [|exact Gk|exact Ho|lia|lia].
            apply (esim_wrote _ _ _ _ _ _ _ _ _ _ _ W) in R3'.
            apply (esim_map (fun a0 => vs ++ a0)) with (Q' := any) in R3'; [|intros; exact I].
            eapply esim_eq; [exact R3'|]. rewrite bind_assoc. apply bind_ext. intros [b3 vs3]. reflexivity. }
      assert (PL2 : (fa_calc a = None \/ exists e, fa_calc a = Some e /\ blen_calls e = Some []) ->
        (pend = true -> is_some (cont_len t) = true /\ fa_cond a = None /\ auto_ok vis None items = true) ->
        (pend = false -> auto_ok vis (option_map wa_c wt) items = true) ->
        idone ((a, t) :: items) wt c c' is /\
        forall m st en (A : string -> Prop) wb wv snk0, einv (ec_rc c) m (es_regs st) en A ->
          (forall n, In n (vis ++ leaf_names (flatten_items ((a, t) :: items))) -> A n) -> regs_lt (ec_rc c) (es_regs st) ->
          isinks wt (ec_rc c) wb (es_snk st) snk0 -> writable (key buf) snk0 ->
          esim is (key buf) (ilo wt c) (ec_rc c') m st snk0
            (se_items (map sitem ((a, t) :: items)) en cond [] [] (option_map (fun x => ref_wait x wb wv) wt)) any).
      { intros Hpl A1 A2.
        assert (H' : (do _ <- (if is_cont t || fa_pad a then gfield (a, t) cond (real_of wt buf) src
                  else do r <- efresh; do _ <- tell (NGetRef r (fa_name a)); gfield (a, t) cond (real_of wt buf) r);
         do autos <- flush_autos (List.length (autos_of cond wt)) (autos_of cond wt) buf;
         enc_items (map gitem items) buf src cond autos) c = Some (is, u, c')).
        { assert (Ert : auto_target (autos_of cond wt) buf = real_of wt buf) by (destruct wt; reflexivity).
          rewrite <- Ert. cbn [map enc_items gitem fst snd] in H. destruct Hpl as [E|(e & E & Eb)]; rewrite E in H; [|rewrite Eb in H]; exact H. }
        destruct (PL A1 A2 H') as (D & R). split; [exact D|]. intros m st en A wb wv snk0 HI HA Hlt Hsnk HW.
        eapply esim_eq; [apply (R m st en A wb wv snk0); assumption|].
        cbn [map Spec.se_items fst snd]. clear - Hpl Hw.
        destruct Hpl as [E|(e & E & Eb)]; rewrite E; [|rewrite Eb].
        all: apply bind_ext; intros v; unfold pend; destruct wt as [x|]; cbn [wpend option_map ref_wait wt_on]; [|reflexivity].
        all: apply bind_ext; intros [b [vs n]]; destruct (String.eqb (wa_c x) (fa_name a) && is_some (cont_len t)) eqn:E1; [|reflexivity].
        all: apply andb_true_iff in E1 as (E1 & _); apply String.eqb_eq in E1.
        all: destruct Hw as ((_ & _ & _ & _ & _ & Erw & _) & _); cbn [ref_wait wt_on wt_item wt_calc wt_bytes wt_vals fst snd]; rewrite Erw; cbn [of_some bind].
        all: unfold flush_ref; rewrite bind_assoc; rewrite <- E1; apply bind_ext; intros cv.
        all: rewrite bind_assoc; apply bind_ext; intros [b0 [vs1 n1]]; reflexivity. }
      clear PL. destruct wt as [x|]; cbn [option_map auto_ok] in Ha.
      + (* something is already waiting *)
        unfold pend in *. cbn [wpend] in *. destruct (String.eqb (wa_c x) (fa_name a)) eqn:En.
        * rewrite !andb_true_iff in Ha. destruct Ha as ((((Hx1 & Hx2) & Hx3) & Hx4) & Hx5).
          apply PL2; [left; destruct (fa_calc a); [discriminate|reflexivity]| |discriminate].
          intros _. split; [assumption|]. split; [destruct (fa_cond a); [discriminate|reflexivity]|assumption].
        * assert (X : (fa_calc a = None \/ (exists e, fa_calc a = Some e /\ blen_calls e = Some [])) /\ auto_ok vis (Some (wa_c x)) items = true).
          { destruct (fa_calc a) as [e|]; [|auto]. destruct (blen_calls e) as [[|]|] eqn:Eb; try discriminate. split; [right; eauto|assumption]. }
          destruct X as (X1 & X2). apply PL2; [assumption|discriminate|intros _; assumption].
      + unfold pend in *. cbn [wpend] in *. destruct (fa_calc a) as [e|] eqn:Ec; [|apply PL2; [left; reflexivity|discriminate|intros _; assumption]].
        destruct (blen_calls e) as [[|cn [|]]|] eqn:Eb; try discriminate; [apply PL2; [right; eauto|discriminate|intros _; assumption]|].
        (* the field has to wait *)
        clear PL2. destruct (rewrite_blen [cn] e) as [e'|] eqn:Erw; [|discriminate]. apply andb_true_iff in Ha as (Hsub & Ha).
        cbn [map enc_items gitem fst snd] in H. rewrite Ec, Eb in H.
        assert (Hcn : In cn (all_conts ((a, t) :: items))).
        { cbn [all_conts flat_map]. apply in_app_iff. right. eapply auto_ok_conts. exact Ha. }
        assert (Hres : lookup cn (ec_resolved c) = None) by (apply Hb; exact Hcn).
        ei H ok c1 G. cbn [all_resolved] in H. ei H o c2 G1. unfold eresolved in H. injection H as <- <- <-. ei G1 b1 c3 G2. ert G1. ert G2.
        rewrite Hres in G. cbn [app] in *.
        ei G t1 c4 G1. cbn [pend_all] in G. ei G o c5 G2. unfold eresolved in G. injection G as <- <- <-. rewrite Hres in G2.
        ei G2 t2 c6 G3. unfold epend in G2. injection G2 as <- <- <-. ert G3.
        set (c1 := {| ec_rc := ec_rc c; ec_resolved := ec_resolved c; ec_pending := cn :: ec_pending c |}) in *.
        ei G1 b c7 G2. apply efresh_spec in G1 as (-> & -> & F1 & F2 & F3). ei G2 t3 c8 G3. etell G2. cbn [app] in *.
        change (ec_rc c1) with (ec_rc c) in *. change (ec_resolved c1) with (ec_resolved c) in *. change (ec_pending c1) with (cn :: ec_pending c) in *. clear c1.
        set (x := {| wa_b := ec_rc c; wa_f := (a, t); wa_e := e; wa_e' := e'; wa_c := cn |}).
        unfold attr_ok in Hat. cbn [fst snd] in Hat. rewrite Ec in Hat. apply andb_true_iff in Hat as (_ & Hat). cbn in Hat.
        assert (Hct : is_cont t = false /\ fa_pad a = false) by (destruct (is_cont t), (fa_pad a); try discriminate; auto).
        destruct Hct as (Hct & Hpad).
        assert (Hb1 : bk items (Some x) c7).
        { destruct Hb as (ND & Hb). cbn [all_conts flat_map] in *. unfold cnames in ND, Hb. cbn [fst snd] in *. rewrite Hct in *. cbn [app] in *.
          split; [assumption|]. intros n Hn. destruct (Hb n Hn) as (B1 & B2). rewrite F2, F3. split; [assumption|].
          cbn. unfold mem in B2. rewrite B2, orb_false_r. apply String.eqb_sym. }
        assert (Hwx : wait_ok vis x /\ (wa_b x < ec_rc c7)%nat).
        { split; [|cbn; lia]. unfold wait_ok. cbn [x wa_f wa_e wa_e' wa_c fst snd]. auto 8. }
        destruct (IH (Some x) buf src cond c7 _ _ _ Hfs Hls Hats Hds Ha Hb1 Hwx Ho G3) as ((L3 & (lr3 & E4 & E5) & Hp3 & leak3 & Sc3 & Fl3) & R3).
        split.
        { split; [lia|]. split.
          { exists lr3. split; [rewrite E4, F2; reflexivity|]. cbn [all_conts flat_map]. apply incl_appr. exact E5. }
          split.
          { intros n. rewrite Hp3, F3. cbn [wpend x wa_c]. cbn [mem existsb]. cbn [negb]. rewrite andb_true_r.
            rewrite (String.eqb_sym n). destruct (String.eqb_spec cn n) as [<-|]; cbn; [|apply andb_true_r].
            symmetry. rewrite (proj2 (proj2 Hb _ Hcn)). reflexivity. }
          exists leak3. split; [intros m; cbn; apply Sc3|]. eapply Forall_impl; [|exact Fl3]. cbn beta. intros nr (X1 & X2). split; [|lia].
          unfold itouched in *. cbn [x wa_f fst] in X1. rewrite !in_app_iff in X1. rewrite !in_app_iff. destruct X1 as [X1|[X1|[X1|[]]]].
          - left. apply leaf_names_tail. exact X1.
          - right. left. apply in_map_iff in X1 as (y & <- & X1). apply in_map. cbn [all_conts flat_map]. apply in_app_iff. right. exact X1.
          - left. unfold leaf_names. cbn [flatten_items flat_map]. unfold flatten_field at 1. cbn [snd]. rewrite Hct. cbn [app filter leaf fst snd].
            unfold leaf at 1. cbn [fst snd]. rewrite Hct, Hpad. left. exact X1. }
        intros m st en A wb wv snk0 HI HA Hlt Hsnk HW. cbn [isinks] in Hsnk. subst snk0.
        cbn [map Spec.se_items fst snd option_map]. rewrite Ec, Eb.
        match goal with |- esim (?i :: ?l) _ _ _ _ _ _ _ _ => change (i :: l) with ([i] ++ l) end.
        eapply (esim_pre [_] _ (key buf) (ec_rc c) (ec_rc c') m st (epush (Some (ec_rc c)) (KBuf []) st) []); [reflexivity|reflexivity|constructor|].
        cbn [escans escan].
        eapply (R3 m (epush (Some (ec_rc c)) (KBuf []) st) en A [] [] (es_snk st)).
        * cbn [epush es_regs]. eapply einv_mono; [exact HI|lia].
        * intros n Hn. apply HA. rewrite in_app_iff in *. destruct Hn as [Hn|Hn]; [auto|right; apply leaf_names_tail; exact Hn].
        * eapply regs_lt_mono; [exact Hlt|lia].
        * exists []. split; [reflexivity|constructor].
        * exact HW.
  Qed.

  (** *** Nested containers *)
  Lemma leaf_names_flat items n : In n (leaf_names items) -> In n (leaf_names (flatten_items items)).
  Proof.
    induction items as [|[a t] items IH]; intros H; [destruct H|]. unfold leaf_names in H. cbn [filter] in H.
    destruct (leaf (a, t)) eqn:El.
    - cbn in H. destruct H as [<-|H]; [|apply leaf_names_tail; apply IH; exact H].
      unfold leaf_names. cbn [flatten_items flat_map]. rewrite filter_app, map_app. apply in_app_iff. left.
      unfold flatten_field. cbn [snd]. pose proof El as El2. unfold leaf in El2. cbn in El2. destruct (is_cont t); [rewrite orb_true_r in El2; discriminate|].
      cbn [filter]. rewrite El. left. reflexivity.
    - apply leaf_names_tail. apply IH. exact H.
  Qed.
  Lemma conts_all len tg items : conts (TCont len tg items) = all_conts items.
  Proof.
    cbn. unfold all_conts. induction items as [|[a t] items IH]; [reflexivity|]. cbn. unfold cnames at 1. cbn. rewrite IH. reflexivity.
  Qed.
  Lemma touched_cont len tg items : touched (TCont len tg items) = leaf_names (flatten_items items) ++ map blen_name (all_conts items).
  Proof. unfold touched. rewrite flatten_ty_cont, conts_all. reflexivity. Qed.

  Lemma enc_nullchecks_ok items : forall c is u c', enc_nullchecks items c = Some (is, u, c') ->
    (ec_rc c <= ec_rc c')%nat /\ ec_resolved c' = ec_resolved c /\ ec_pending c' = ec_pending c /\
    (exists leak, (forall m, escans is m = leak ++ m) /\ Forall (fun nr => In (fst nr) (leaf_names items) /\ (snd nr < ec_rc c')%nat) leak) /\
    forall m st en (A : string -> Prop), einv (ec_rc c) m (es_regs st) en A -> (forall n, In n (leaf_names items) -> A n) ->
      match se_unwraps items en with
      | Ok en' => exists new, keys_in (ec_rc c) (ec_rc c') new /\
          eseq m is st = Ok (ENext {| es_regs := new ++ es_regs st; es_snk := es_snk st |}) /\
          einv (ec_rc c') (escans is m) (new ++ es_regs st) en' A
      | Err e => eseq m is st = Err e | Panic => eseq m is st = Panic | Hang => eseq m is st = Hang
      end.
  Proof.
    induction items as [|[a t] items IH]; intros c is u c' H; cbn [enc_nullchecks] in H.
    - ert H. split; [lia|]. split; [reflexivity|]. split; [reflexivity|]. split; [exists []; split; [reflexivity|constructor]|].
      intros m st en A HI _. cbn. exists []. split; [constructor|]. split; [destruct st; reflexivity|exact HI].
    - assert (Eg : (match fa_calc a with Some _ => true | None => false end) || fa_pad a || is_cont t || (match fa_cond a with Some _ => true | None => false end)
        = is_some (fa_calc a) || fa_pad a || is_cont t || is_some (fa_cond a)) by reflexivity.
      rewrite Eg in H. clear Eg. cbn [Spec.se_unwraps].
      destruct (is_some (fa_calc a) || fa_pad a || is_cont t || is_some (fa_cond a)) eqn:Eg.
      + destruct (IH _ _ _ _ H) as (L & M1 & M2 & (leak & Sc & Fl) & R). split; [assumption|]. split; [assumption|]. split; [assumption|].
        assert (Hin : forall n, In n (leaf_names items) -> In n (leaf_names ((a, t) :: items))).
        { intros n Hn. unfold leaf_names. cbn [filter]. destruct (leaf (a, t)); [right|]; exact Hn. }
        split.
        { exists leak. split; [assumption|]. eapply Forall_impl; [|exact Fl]. cbn beta. intros nr (X1 & X2). split; [|assumption]. auto. }
        intros m st en A HI HA. apply R; [assumption|]. intros n Hn. apply HA. auto.
      + apply orb_false_iff in Eg as (Eg & Eg4). apply orb_false_iff in Eg as (Eg & Eg3). apply orb_false_iff in Eg as (Eg1 & Eg2).
        assert (Elf : leaf (a, t) = true) by (unfold leaf; cbn; rewrite Eg2, Eg3; reflexivity).
        assert (Hin : forall n, In n (leaf_names items) -> In n (leaf_names ((a, t) :: items))).
        { intros n Hn. unfold leaf_names. cbn [filter]. rewrite Elf. right. exact Hn. }
        assert (Hnm : In (fa_name a) (leaf_names ((a, t) :: items))).
        { unfold leaf_names. cbn [filter]. rewrite Elf. left. reflexivity. }
        ei H r c1 G. apply efresh_spec in H as (-> & -> & F1 & F2 & F3). ei G t1 c2 G1. etell G. ei G1 t2 c3 G2. etell G1. ei G2 t3 c4 G3. etell G2. cbn [app].
        destruct (IH _ _ _ _ G3) as (L & M1 & M2 & (leak & Sc & Fl) & R). split; [lia|]. split; [congruence|]. split; [congruence|].
        split.
        { exists (leak ++ [(fa_name a, ec_rc c)]). split; [intros m; cbn; rewrite Sc, <- app_assoc; reflexivity|]. apply Forall_app. split.
          - eapply Forall_impl; [|exact Fl]. cbn beta. intros nr (X1 & X2). split; [|assumption]. auto.
          - constructor; [|constructor]. cbn [fst snd]. split; [assumption|lia]. }
        intros m st en A HI HA. pose proof (HA _ Hnm) as Hv. destruct HI as (HI1 & HI2). pose proof (HI2 _ Hv) as Ev.
        assert (Er : forall code, eseq m (NGetRef (ec_rc c) (fa_name a) :: NNullCheck (ec_rc c) (ec_rc c) :: NSetRef (fa_name a) (ec_rc c) :: code) st
          = let! v := of_some (lookup (fa_name a) en) in let! x := unwrap_opt v in
            eseq ((fa_name a, ec_rc c) :: m) code {| es_regs := (ec_rc c, x) :: (ec_rc c, v) :: es_regs st; es_snk := es_snk st |}).
        { intros code. rewrite eseq_cons. cbn [Encode.erun escan]. rewrite Ev. destruct (lookup (fa_name a) m) as [q|]; cbn [of_some bind]; [|reflexivity].
          unfold ereg. destruct (assoc q (es_regs st)) as [v|]; cbn [of_some bind]; [|reflexivity].
          rewrite eseq_cons. cbn [Encode.erun escan]. unfold ereg. cbn [elet es_regs assoc]. rewrite Nat.eqb_refl. cbn [of_some bind].
          destruct v as [| | | | | |o| | | | | |]; try reflexivity. destruct o; reflexivity. }
        destruct (lookup (fa_name a) en) as [v|] eqn:El; cbn [of_some bind]; [|rewrite Er; reflexivity].
        destruct (unwrap_opt v) as [x| | |] eqn:Eu; cbn [bind]; try (rewrite Er; cbn [of_some bind]; rewrite Eu; reflexivity).
        assert (HI3 : einv (ec_rc c1) ((fa_name a, ec_rc c) :: m) ((ec_rc c, x) :: (ec_rc c, v) :: es_regs st) ((fa_name a, x) :: en) A).
        { rewrite F1. eapply einv_sub; [apply (einv_set (S (ec_rc c)) _ _ en A (fa_name a) (ec_rc c) x)|].
          - apply (einv_ext (ec_rc c) _ m (es_regs st) en A [(ec_rc c, x); (ec_rc c, v)]); [split; assumption| |lia]. repeat constructor; cbn; lia.
          - cbn. rewrite Nat.eqb_refl. reflexivity.
          - lia.
          - intros y Hy. left. exact Hy. }
        specialize (R ((fa_name a, ec_rc c) :: m) {| es_regs := (ec_rc c, x) :: (ec_rc c, v) :: es_regs st; es_snk := es_snk st |} ((fa_name a, x) :: en) A HI3
          ltac:(intros n Hn; apply HA; auto)).
        rewrite !Er. cbn [of_some bind]. rewrite !Eu. cbn [bind]. cbn [es_regs es_snk] in R.
        destruct (se_unwraps items ((fa_name a, x) :: en)) as [en'| | |]; try exact R.
        destruct R as (new & K & E & HI4). exists (new ++ [(ec_rc c, x); (ec_rc c, v)]). rewrite <- !app_assoc. cbn [app].
        split. { apply keys_in_app; [eapply keys_in_weaken; [exact K| |]; lia|]. repeat constructor; cbn; lia. }
        split; [exact E|]. cbn [escans escan]. exact HI4.
  Qed.

  (** The contents of an untagged container. *)
  Lemma inner_ok vis items : ewf vis (TCont None false items) = true ->
    Forall (fun f => fa_pad (fst f) = false -> kspec f (enc_complex p rf false (fst f) (snd f)) (se_complex (fst f) (snd f)) (vis ++ leaf_names items)) items ->
    forall tgt src (cond : bool) c is u c',
    (do _ <- (if cond then enc_nullchecks items else gret tt); enc_items (map gitem items) tgt src cond []) c = Some (is, u, c') ->
    old_key (ec_rc c) (key tgt) -> bk items None c ->
    idone items None c c' is /\
    forall m st en (A : string -> Prop), einv (ec_rc c) m (es_regs st) en A ->
      (forall n, In n (vis ++ leaf_names (flatten_items items)) -> A n) -> regs_lt (ec_rc c) (es_regs st) -> writable (key tgt) (es_snk st) ->
      esim is (key tgt) (ec_rc c) (ec_rc c') m st (es_snk st)
        (let! en' := (if cond then se_unwraps items en else Ok en) in se_items (map sitem items) en' cond [] [] None) any.
  Proof.
    intros Hwf Hk tgt src cond c is u c' H Ho Hb. cbn [ewf negb andb] in Hwf. rewrite !andb_true_iff in Hwf. destruct Hwf as (((_ & Hd) & Ha) & Hfs).
    rewrite forallb_forall in Hfs.
    set (vis' := vis ++ leaf_names items) in *.
    assert (Hat : Forall (fun f => attr_ok vis' f = true) items).
    { apply Forall_forall. intros f Hf. apply Hfs in Hf. apply andb_true_iff in Hf. tauto. }
    assert (Hsp : Forall (ispec vis') items).
    { rewrite Forall_forall in *. intros [a t] Hf. pose proof (Hfs _ Hf) as X. apply andb_true_iff in X as (X1 & X2).
      unfold ispec, gfield. cbn [fst snd] in *. apply enc_field_ok; [exact (Hk _ Hf)|exact X1|exact X2]. }
    assert (Hl : forall f, In f items -> leaf f = true -> In (fa_name (fst f)) vis').
    { intros f Hf Hlf. unfold vis'. apply in_app_iff. right. unfold leaf_names. apply (in_map (fun f => fa_name (fst f))). apply filter_In. auto. }
    ei H t1 c1 G.
    assert (N : (ec_rc c <= ec_rc c1)%nat /\ ec_resolved c1 = ec_resolved c /\ ec_pending c1 = ec_pending c /\
      (exists leak, (forall m, escans i m = leak ++ m) /\ Forall (fun nr => In (fst nr) (leaf_names items) /\ (snd nr < ec_rc c1)%nat) leak) /\
      forall m st en (A : string -> Prop), einv (ec_rc c) m (es_regs st) en A -> (forall n, In n (leaf_names items) -> A n) ->
      match (if cond then se_unwraps items en else Ok en) with
      | Ok en' => exists new, keys_in (ec_rc c) (ec_rc c1) new /\
          eseq m i st = Ok (ENext {| es_regs := new ++ es_regs st; es_snk := es_snk st |}) /\
          einv (ec_rc c1) (escans i m) (new ++ es_regs st) en' A
      | Err e => eseq m i st = Err e | Panic => eseq m i st = Panic | Hang => eseq m i st = Hang
      end).
    { destruct cond; [eapply enc_nullchecks_ok; exact H|]. ert H. split; [lia|]. split; [reflexivity|]. split; [reflexivity|].
      split; [exists []; split; [reflexivity|constructor]|]. intros m st en A HI _. exists []. split; [constructor|]. split; [destruct st; reflexivity|exact HI]. }
    destruct N as (L1 & M1 & M2 & (leak & Sc & Fl) & R1). clear H.
    assert (Hb1 : bk items None c1) by (destruct Hb as (B1 & B2); split; [assumption|]; rewrite M1, M2; assumption).
    change (@nil auto) with (autos_of cond None) in G.
    destruct (enc_items_ok vis' items None tgt src cond c1 _ _ _ Hsp Hl Hat Hd Ha Hb1 I ltac:(cbn [ilo]; eapply old_key_le; [exact Ho|lia]) G)
      as ((L3 & (lr3 & E4 & E5) & Hp3 & leak3 & Sc3 & Fl3) & R3).
    split.
    { split; [lia|]. split; [exists lr3; split; [congruence|assumption]|]. split; [intros n; rewrite Hp3, M2; reflexivity|].
      exists (leak3 ++ leak). split; [intros m; rewrite escans_app, Sc, Sc3, <- app_assoc; reflexivity|]. apply Forall_app. split; [assumption|].
      eapply Forall_impl; [|exact Fl]. cbn beta. intros nr (X1 & X2). split; [|lia]. unfold itouched. apply in_app_iff. left. apply leaf_names_flat. exact X1. }
    intros m st en A HI HA Hlt HW.
    assert (HA1 : forall n, In n (leaf_names items) -> A n) by (intros n Hn; apply HA; apply in_app_iff; right; apply leaf_names_flat; assumption).
    specialize (R1 m st en A HI HA1).
    apply esim_bind_err.
    { destruct (if cond then se_unwraps items en else Ok en); try exact I; rewrite eseq_app, R1; reflexivity. }
    intros en' Een. rewrite Een in R1. destruct R1 as (new & K & E & HI1).
    eapply (esim_after i new _ (key tgt) (ec_rc c) (ec_rc c1) (ec_rc c')) with (Q := any); [exact E|exact K|lia|lia| |intros; exact I].
    apply (R3 (escans i m) {| es_regs := new ++ es_regs st; es_snk := es_snk st |} en' A [] [] (es_snk st)); cbn [es_regs es_snk isinks].
    - exact HI1.
    - intros n Hn. apply HA. unfold vis' in Hn. rewrite !in_app_iff in *. destruct Hn as [[Hn|Hn]|Hn]; auto. right. apply leaf_names_flat. exact Hn.
    - eapply regs_lt_app; eauto.
    - reflexivity.
    - exact HW.
  Qed.

  (** *** Length-constrained containers *)
  Definition elimit (len : option expr) (name : string) (g : target -> egen unit) (tgt : target) : egen unit :=
    do buf <- match len with
              | Some e =>
                  do b <- efresh;
                  do pend <- epending name;
                  do _ <- (if pend then tell (NAllocDyn b)
                           else do l <- eeval e; tell (NAllocBuf b l));
                  gret (Some b)
              | None => gret None
              end;
    do _ <- g (match buf with Some b => TBuf b | None => tgt end);
    match buf with
    | Some b =>
        do pend <- epending name;
        do _ <- (if pend then
                   do _ <- eunpend name;
                   do r <- efresh;
                   do _ <- tell (NGetLen r b);
                   ers_insert name r
                 else gret tt);
        tell (NEmitBuf tgt b)
    | None => gret tt
    end.

  Definition lenr {B} (r : res ioerr (list Z * B)) : res ioerr (list Z * (B * nat)) := let! (b, a) := r in Ok (b, (a, List.length b)).
  Definition ldone (X : list string) (T : string -> Prop) (c c' : ectx) (is : list einstr) : Prop :=
    (ec_rc c <= ec_rc c')%nat
    /\ (exists lr, ec_resolved c' = lr ++ ec_resolved c /\ incl (map fst lr) X)
    /\ (forall n, mem n (ec_pending c') = mem n (ec_pending c))
    /\ exists leak, (forall m, escans is m = leak ++ m)
         /\ Forall (fun nr => T (fst nr) /\ (snd nr < ec_rc c')%nat) leak.
  Definition ldone' (X : list string) (T : string -> Prop) (name : string) (q : bool) (c c' : ectx) (is : list einstr) : Prop :=
    (ec_rc c <= ec_rc c')%nat
    /\ (exists lr, ec_resolved c' = lr ++ ec_resolved c /\ incl (map fst lr) (name :: X)
          /\ (q = true -> exists r, lookup name (ec_resolved c') = Some r /\ (r < ec_rc c')%nat))
    /\ (forall n, mem n (ec_pending c') = mem n (ec_pending c) && negb (q && String.eqb n name))
    /\ exists leak, (forall m, escans is m = leak ++ m)
         /\ Forall (fun nr => T (fst nr) /\ (snd nr < ec_rc c')%nat) leak.

  Lemma mem_cons n x l : mem n (x :: l) = String.eqb n x || mem n l.
  Proof. reflexivity. Qed.
  Lemma mem_filter n nm l : mem n (filter (fun m => negb (String.eqb nm m)) l) = mem n l && negb (String.eqb n nm).
  Proof.
    induction l as [|x l IH]; [reflexivity|]. cbn [filter]. destruct (String.eqb_spec nm x) as [<-|Hn]; cbn [negb].
    - rewrite IH, mem_cons. destruct (String.eqb n nm); cbn; [rewrite andb_false_r; reflexivity|reflexivity].
    - rewrite !mem_cons, IH. destruct (String.eqb_spec n x) as [->|]; cbn; [|reflexivity].
      destruct (String.eqb_spec x nm); [congruence|reflexivity].
  Qed.

  (** The buffer of a length-constrained container: contents, then copied to the target. *)
  Lemma buf_ok {B} is t b lo hi hi' r m st (new0 : regs) (res0 : res ioerr (list Z * B)) (q : bool) :
    esim is (Some b) lo hi m {| es_regs := new0 ++ es_regs st; es_snk := (Some b, KBuf []) :: es_snk st |}
      ((Some b, KBuf []) :: es_snk st) res0 any ->
    keys_in (S b) lo new0 -> regs_lt b (es_regs st) -> old_key b (key t) -> writable (key t) (es_snk st) ->
    (b < lo)%nat -> (lo <= hi)%nat -> (hi <= hi')%nat -> (q = true -> r = hi /\ (hi < hi')%nat) ->
    esim (is ++ (if q then [NGetLen r b] else []) ++ [NEmitBuf t b]) (key t) b hi' m
      {| es_regs := new0 ++ es_regs st; es_snk := (Some b, KBuf []) :: es_snk st |} (es_snk st) (lenr res0)
      (fun an new => q = true -> assoc r new = Some (VInt U64 (Z.of_nat (snd an)))).
  Proof.
    intros H K0 Hlt Ho HW L1 L2 L3 Hq. unfold esim, lenr in *. rewrite !eseq_app.
    destruct res0 as [[bs a]| | |]; cbn [bind]; try (rewrite H; reflexivity).
    destruct H as (new & g & base' & K & G & W & E & _). cbn [wr] in W. rewrite key_eqb_some, Nat.eqb_refl in W. cbn [app] in W. injection W as <-.
    rewrite E. cbn [bind es_regs].
    destruct (writable_wr _ _ bs HW) as (l' & Hl).
    assert (Hs : sink_of (Some b) (g ++ (Some b, KBuf bs) :: es_snk st) = Some (KBuf bs)).
    { rewrite (sink_old lo hi _ _ _ (old_some b lo L1) G). cbn. rewrite Nat.eqb_refl. reflexivity. }
    assert (Hw2 : wr (key t) bs (g ++ (Some b, KBuf bs) :: es_snk st) = Some (g ++ (Some b, KBuf bs) :: l')).
    { assert (Ho2 : old_key lo (key t)) by (eapply old_key_le; [exact Ho|lia]). rewrite (wr_old lo hi (key t) bs g _ Ho2 G). cbn [wr].
      rewrite (old_key_neq b (key t) b Ho) by lia. rewrite Hl. reflexivity. }
    set (new1 := if q then (r, VInt U64 (Z.of_nat (List.length bs))) :: new else new).
    exists new1, (g ++ [(Some b, KBuf bs)]), l'.
    assert (Hrg : assoc b (new ++ new0 ++ es_regs st) = None).
    { rewrite assoc_app, (assoc_none lo hi b new K) by lia. rewrite assoc_app, (assoc_none (S b) lo b new0 K0) by lia.
      apply (regs_lt_none b); [assumption|lia]. }
    split. { unfold new1. destruct q; [constructor; [cbn; destruct (Hq eq_refl); lia|]|]; (eapply keys_in_weaken; [exact K|lia|lia]). }
    split. { apply skeys_in_app; [eapply skeys_in_weaken; [exact G|lia|lia]|]. constructor; [|constructor]. eexists. split; [reflexivity|lia]. }
    split; [exact Hl|]. split.
    - rewrite <- app_assoc. cbn [app]. unfold new1. destruct q.
      + cbn [app]. rewrite eseq_cons. cbn [Encode.erun escan es_regs es_snk]. rewrite Hrg, Hs. cbn [bind]. rewrite eseq_one.
        cbn [Encode.erun elet es_snk]. rewrite Hs. unfold ewrite. cbn [elet es_snk es_regs]. rewrite Hw2. reflexivity.
      + cbn [app]. rewrite eseq_one. cbn [Encode.erun es_snk]. rewrite Hs. unfold ewrite. cbn [es_snk es_regs]. rewrite Hw2. reflexivity.
    - intros Eq. unfold new1. rewrite Eq. cbn. rewrite Nat.eqb_refl. reflexivity.
  Qed.

  Lemma elimit_ok {B} len name g tgt c is u c' (r : env -> res ioerr (list Z * B)) X T (VS : list string) (P : rmap -> regs -> Prop) :
    (forall m rg x, P m rg -> P m ((S (ec_rc c), x) :: rg)) ->
    elimit len name g tgt c = Some (is, u, c') -> old_key (ec_rc c) (key tgt) -> incl (fvo len) VS ->
    (forall btgt c1 is u c2, g btgt c1 = Some (is, u, c2) -> old_key (ec_rc c1) (key btgt) ->
       ec_resolved c1 = ec_resolved c -> ec_pending c1 = ec_pending c -> (ec_rc c <= ec_rc c1)%nat ->
       ldone X T c1 c2 is /\
       forall m st en (A : string -> Prop), einv (ec_rc c1) m (es_regs st) en A -> (forall n, In n VS -> A n) -> P m (es_regs st) -> regs_lt (ec_rc c1) (es_regs st) ->
         writable (key btgt) (es_snk st) -> esim is (key btgt) (ec_rc c1) (ec_rc c2) m st (es_snk st) (r en) any) ->
    let pend := mem name (ec_pending c) in let q := pend && is_some len in
    ldone' X T name q c c' is /\
    forall m st en (A : string -> Prop), einv (ec_rc c) m (es_regs st) en A -> (forall n, In n VS -> A n) -> P m (es_regs st) -> regs_lt (ec_rc c) (es_regs st) ->
      writable (key tgt) (es_snk st) ->
      esim is (key tgt) (ec_rc c) (ec_rc c') m st (es_snk st) (lenr (se_limit w inputs None en len pend (r en)))
        (fun an new => q = true -> exists r0, lookup name (ec_resolved c') = Some r0 /\ assoc r0 new = Some (VInt U64 (Z.of_nat (snd an)))).
  Proof.
    intros HP H Ho Hfv Hg pend q. unfold elimit in H. ei H buf c1 G. destruct len as [e|].
    - ei H b c2 G1. apply efresh_spec in H as (-> & -> & F1 & F2 & F3). ei G1 pn c3 G2. unfold epending in G1. injection G1 as <- <- <-.
      rewrite F3 in G2. fold pend in G2. ein G2 t1 c4 G3 i4 i4'. ert G3. ein G t2 c5 G4 i5 i5'. ei G4 pn2 c6 G5. unfold epending in G4. injection G4 as <- <- <-.
      assert (Hp0 : ec_resolved c4 = ec_resolved c /\ ec_pending c4 = ec_pending c /\ ec_rc c4 = (if pend then S (ec_rc c) else S (S (ec_rc c)))).
      { destruct pend; [etell G2; rewrite F1, F2, F3; auto|]. ei G2 l c7 G6. etell G6. apply eeval_spec in G2 as (-> & -> & E1 & E2 & E3).
        rewrite E1, E2, E3, F1, F2, F3. auto. }
      destruct Hp0 as (P1 & P2 & P3).
      assert (Lc : (S (ec_rc c) <= ec_rc c4)%nat) by (rewrite P3; destruct pend; lia).
      destruct (Hg (TBuf (ec_rc c)) c4 _ _ _ G (old_some (ec_rc c) (ec_rc c4) Lc) P1 P2 (Nat.lt_le_incl _ _ Lc)) as ((L & (lr & R1 & R2) & Hpn & leak & Sc & Fl) & R). clear Hg.
      ein G5 t3 c7 G6 i6 i7. etell G6. rewrite Hpn, P2 in G5. fold pend in G5.
      subst q. cbn [is_some]. rewrite andb_true_r.
      assert (Ht : ec_rc c7 = (if pend then S (ec_rc c5) else ec_rc c5)
         /\ ec_resolved c7 = (if pend then [(name, ec_rc c5)] else []) ++ ec_resolved c5
         /\ (forall n, mem n (ec_pending c7) = mem n (ec_pending c) && negb (pend && String.eqb n name))
         /\ i6 = (if pend then [NGetLen (ec_rc c5) (ec_rc c)] else [])).
      { destruct pend.
        - ei G5 t4 c8 G6. unfold eunpend in G5. injection G5 as <- <- <-. ei G6 rr c9 G7. apply efresh_spec in G6 as (-> & -> & X1 & X2 & X3). cbn [ec_rc ec_resolved ec_pending] in *.
          ei G7 t5 c10 G8. etell G7. unfold ers_insert in G8. injection G8 as <- <- <-. cbn [ec_rc ec_resolved ec_pending app]. rewrite X1, X2, X3.
          split; [reflexivity|]. split; [reflexivity|]. split; [|reflexivity]. intros n. rewrite mem_filter, Hpn, P2. reflexivity.
        - ert G5. split; [reflexivity|]. split; [reflexivity|]. split; [|reflexivity]. intros n. rewrite Hpn, P2. cbn. rewrite andb_true_r. reflexivity. }
      destruct Ht as (T1 & T2 & T3 & ->). cbn [app]. rewrite app_nil_r.
      assert (L2 : (ec_rc c5 <= ec_rc c7)%nat) by (rewrite T1; destruct pend; lia).
      assert (Hi4 : (pend = true /\ i4 = [NAllocDyn (ec_rc c)]) \/ (pend = false /\ i4 = [NEval (S (ec_rc c)) e; NAllocBuf (ec_rc c) (S (ec_rc c))])).
      { destruct pend; [etell G2; auto|]. ei G2 l c8 G6. etell G6. apply eeval_spec in G2 as (-> & -> & E1 & E2 & E3). rewrite F1. auto. }
      split.
      { split; [lia|]. split.
        { exists ((if pend then [(name, ec_rc c5)] else []) ++ lr). rewrite T2, R1, P1, <- app_assoc. split; [reflexivity|]. split.
          - rewrite map_app. apply incl_app; [|apply incl_tl; assumption]. destruct pend; [intros x [<-|[]]; left; reflexivity|intros ? []].
          - intros Ep. rewrite Ep in *. cbn [app]. rewrite lookup_cons, String.eqb_refl. exists (ec_rc c5). split; [reflexivity|]. lia. }
        split; [assumption|]. exists leak. split.
        { intros m. rewrite !escans_app. destruct Hi4 as [(Ep & ->)|(Ep & ->)]; rewrite Ep; cbn [escans escan]; apply Sc. }
        eapply Forall_impl; [|exact Fl]. cbn beta. intros nr (X1 & X2). split; [assumption|lia]. }
      intros m st en A HI HA HPm Hlt HW. cbn [se_limit].
      assert (Hq : forall r0 st' base, esim (i5 ++ (if pend then [NGetLen (ec_rc c5) (ec_rc c)] else []) ++ [NEmitBuf tgt (ec_rc c)]) (key tgt) (ec_rc c) (ec_rc c7) m st' base r0
           (fun (an : B * nat) new => pend = true -> assoc (ec_rc c5) new = Some (VInt U64 (Z.of_nat (snd an)))) ->
         esim (i5 ++ (if pend then [NGetLen (ec_rc c5) (ec_rc c)] else []) ++ [NEmitBuf tgt (ec_rc c)]) (key tgt) (ec_rc c) (ec_rc c7) m st' base r0
           (fun an new => pend = true -> exists r1, lookup name (ec_resolved c7) = Some r1 /\ assoc r1 new = Some (VInt U64 (Z.of_nat (snd an))))).
      { intros r0 st' base Hs. eapply esim_weaken; [exact Hs|lia|lia|]. intros an new _ Hx Ep. exists (ec_rc c5). split; [|auto].
        rewrite T2, Ep. cbn [app]. rewrite lookup_cons, String.eqb_refl. reflexivity. }
      assert (Hbq : pend = true -> ec_rc c5 = ec_rc c5 /\ (ec_rc c5 < ec_rc c7)%nat) by (intros Ep; rewrite T1, Ep; lia).
      destruct Hi4 as [(Ep & ->)|(Ep & ->)].
      + rewrite Ep.
        eapply (esim_preq [NAllocDyn (ec_rc c)] _ (key tgt) (ec_rc c) (ec_rc c7) m st _ []); [reflexivity|reflexivity|constructor|].
        cbn [escans escan epush]. rewrite Ep in Hq.
        eapply esim_weaken; [apply Hq|lia|lia|].
        * eapply (buf_ok i5 tgt (ec_rc c) (ec_rc c4) (ec_rc c5) (ec_rc c7) (ec_rc c5) m st [] (r en) true); try assumption; try lia; [|constructor|intros _; apply Hbq; exact Ep].
          apply (R m {| es_regs := es_regs st; es_snk := (Some (ec_rc c), KBuf []) :: es_snk st |} en A); cbn [es_regs es_snk].
          -- eapply einv_mono; [exact HI|lia].
          -- exact HA.
          -- exact HPm.
          -- eapply regs_lt_mono; [exact Hlt|lia].
          -- unfold writable. cbn. rewrite Nat.eqb_refl. reflexivity.
        * intros an new _ Hx _. rewrite app_nil_r. apply Hx. reflexivity.
      + rewrite Ep in *. cbn [app]. unfold lenr at 1. rewrite bind_assoc. clear Hbq Hq.
        change (NEval (S (ec_rc c)) e :: ?l) with ([NEval (S (ec_rc c)) e] ++ l).
        assert (Ee := eeval_run e m (S (ec_rc c)) st en (ec_rc c) A HI ltac:(intros n Hn; apply HA; apply Hfv; exact Hn)).
        apply esim_bind_err.
        { destruct (ev en e); try exact I; rewrite eseq_app, Ee; reflexivity. }
        intros v Ev. rewrite Ev in Ee. cbn [bind] in Ee. rewrite bind_assoc.
        assert (Er : eseq m ([NEval (S (ec_rc c)) e] ++ [NAllocBuf (ec_rc c) (S (ec_rc c))]) st =
          let! _ := len_of v in Ok (ENext (epush (Some (ec_rc c)) (KBuf []) (elet (S (ec_rc c)) v st)))).
        { rewrite eseq_app, Ee. cbn [bind]. rewrite eseq_one. cbn [Encode.erun]. unfold ereg. cbn [elet es_regs assoc]. rewrite Nat.eqb_refl. reflexivity. }
        change ([NEval (S (ec_rc c)) e] ++ NAllocBuf (ec_rc c) (S (ec_rc c)) :: ?l) with (([NEval (S (ec_rc c)) e] ++ [NAllocBuf (ec_rc c) (S (ec_rc c))]) ++ l).
        apply esim_bind_err.
        { destruct (len_of v); try exact I; rewrite eseq_app, Er; reflexivity. }
        intros n En. rewrite En in Er. cbn [bind] in Er.
        eapply (esim_preq _ _ (key tgt) (ec_rc c) (ec_rc c7) m st _ [(S (ec_rc c), v)]); [exact Er|reflexivity|constructor; [cbn; lia|constructor]|].
        cbn [escans escan epush elet app es_regs es_snk].
        assert (Bq := buf_ok i5 tgt (ec_rc c) (ec_rc c4) (ec_rc c5) (ec_rc c7) (ec_rc c5) m st [(S (ec_rc c), v)] (r en) false). cbn [app] in Bq.
        eapply esim_eq.
        * eapply esim_weaken; [apply Bq|lia|lia|intros an new _ _ X1; discriminate X1]; try assumption; try lia.
          -- apply (R m {| es_regs := (S (ec_rc c), v) :: es_regs st; es_snk := (Some (ec_rc c), KBuf []) :: es_snk st |} en A); cbn [es_regs es_snk].
             ++ rewrite P3. apply einv_cons; [|lia]. eapply einv_mono; [exact HI|lia].
             ++ exact HA.
             ++ apply HP. exact HPm.
             ++ constructor; [cbn; lia|]. eapply regs_lt_mono; [exact Hlt|lia].
             ++ unfold writable. cbn. rewrite Nat.eqb_refl. reflexivity.
          -- constructor; [cbn; lia|constructor].
        * unfold lenr. rewrite bind_assoc. apply bind_ext. intros [b0 a0]. reflexivity.
    - ert H. ei G t1 c1 G1. ert G1. rewrite app_nil_r. cbn [app]. subst q. cbn [is_some]. rewrite andb_false_r.
      destruct (Hg tgt c _ _ _ G Ho eq_refl eq_refl (le_n _)) as ((L & (lr & R1 & R2) & Hpn & leak & Sc & Fl) & R). split.
      { split; [assumption|]. split; [exists lr; split; [assumption|]; split; [apply incl_tl; assumption|discriminate]|].
        split; [intros n; rewrite Hpn; cbn; rewrite andb_true_r; reflexivity|]. exists leak. auto. }
      intros m st en A HI HA HPm Hlt HW. cbn [se_limit]. specialize (R m st en A HI HA HPm Hlt HW). unfold esim, lenr in *.
      destruct (r en) as [[b a]| | |]; cbn [bind]; try exact R. destruct R as (new & g0 & base' & K & G2 & W & E & _).
      exists new, g0, base'. do 4 (split; [assumption|]). discriminate.
  Qed.

  Lemma idone_ldone items c c' is : idone items None c c' is ->
    ldone (all_conts items) (fun n => In n (leaf_names (flatten_items items) ++ map blen_name (all_conts items))) c c' is.
  Proof.
    intros (L & R & Hp & leak & Sc & Fl). split; [assumption|]. split; [assumption|]. split; [intros n; rewrite Hp; cbn; apply andb_true_r|].
    exists leak. split; [assumption|]. eapply Forall_impl; [|exact Fl]. cbn beta. intros nr (X1 & X2). split; [|assumption].
    unfold itouched in X1. rewrite app_nil_r in X1. exact X1.
  Qed.

  Lemma enc_complex_ok t : forall vis a, fa_pad a = false -> ewf vis t = true -> kspec (a, t) (enc_complex p rf false a t) (se_complex a t) vis.
  Proof.
    induction t as [| | | | | | | | |len tg items IH] using ty_ind'; intros vis a Hp Hwf; try (apply enc_leaf_ok; [reflexivity|exact Hp|exact Hwf]).
    intros tgt src cond c is u c' pend H Ho Hsrc (Y1 & Y2 & Y3 & Y4). cbn [fst snd] in *. specialize (Y2 eq_refl).
    pose proof Hwf as Hwf0. cbn [ewf] in Hwf. rewrite !andb_true_iff in Hwf. destruct Hwf as ((((W1 & W2) & W3) & W4) & W5).
    destruct tg; [discriminate|].
    assert (Hwf1 : ewf vis (TCont None false items) = true) by (cbn [ewf]; rewrite !andb_true_iff; auto).
    change (enc_complex p rf false a (TCont len false items) tgt src cond) with
      (elimit len (fa_name a) (fun btgt => do _ <- (if cond then enc_nullchecks items else gret tt); enc_items (map gitem items) btgt src cond []) tgt) in H.
    assert (Hk : Forall (fun f => fa_pad (fst f) = false -> kspec f (enc_complex p rf false (fst f) (snd f)) (se_complex (fst f) (snd f)) (vis ++ leaf_names items)) items).
    { rewrite Forall_forall in *. intros [a' t'] Hf Hp'. apply (IH _ Hf); [exact Hp'|]. rewrite forallb_forall in W5. apply W5 in Hf. apply andb_true_iff in Hf. tauto. }
    assert (Hcn : cnames (a, TCont len false items) = fa_name a :: all_conts items).
    { unfold cnames. cbn [fst snd is_cont]. rewrite conts_all. reflexivity. }
    rewrite conts_all in Y3. rewrite Hcn in *. inversion Y4 as [|? ? ND1 ND2]; subst.
    destruct (elimit_ok len (fa_name a) _ tgt c is u c'
       (fun en => let! en' := (if cond then se_unwraps items en else Ok en) in se_items (map sitem items) en' cond [] [] None)
       (all_conts items) (fun n => In n (leaf_names (flatten_items items) ++ map blen_name (all_conts items))) (vis ++ leaf_names (flatten_items items)) (fun _ _ => True) ltac:(auto) H Ho) as (D & R).
    { intros n Hn. apply in_app_iff. left. apply (subset_incl _ _ W2). exact Hn. }
    { intros btgt c1 is1 u1 c2 G Ho1 E1 E2 _.
      destruct (inner_ok vis items Hwf1 Hk btgt src cond c1 is1 u1 c2 G Ho1) as (D & R).
      { split; [assumption|]. intros n Hn. rewrite E1, E2. split; [apply Y1; right; exact Hn|]. cbn. apply Y3. exact Hn. }
      split; [apply idone_ldone; exact D|]. intros m st en A HI HA _. eapply R; eassumption. }
    split.
    - destruct D as (L & (lr & R1 & R2 & R3) & Hpn & leak & Sc & Fl). unfold edone. rewrite Hcn. cbn [fst snd cont_len]. split; [assumption|].
      split; [exists lr; auto|]. split; [assumption|]. rewrite touched_cont. exists leak. auto.
    - intros m st en A v HI HA _ Hlt HW. cbn [fst snd] in *. rewrite flatten_ty_cont in HA.
      specialize (R m st en A HI HA I Hlt HW). eapply esim_eq; [exact R|]. unfold lenr, with_len. cbn [Spec.se_complex]. rewrite Hp. reflexivity.
  Qed.

  (** *** Struct declarations *)
  Definition fnames (l : list (fattr * ty)) : list string := map (fun f => fa_name (fst f)) l.
  (** Code that only defines references. *)
  Definition rdone (T : list string) (c c' : ectx) (is : list einstr) : Prop :=
    (ec_rc c <= ec_rc c')%nat /\ ec_resolved c' = ec_resolved c /\ ec_pending c' = ec_pending c /\
    exists leak, (forall m, escans is m = leak ++ m) /\ Forall (fun nr => In (fst nr) T /\ (snd nr < ec_rc c')%nat) leak.
  Definition rsim (is : list einstr) (c c' : ectx) (m : rmap) (st : est) (A : string -> Prop) (r : res ioerr env) : Prop :=
    match r with
    | Ok en' => exists new, keys_in (ec_rc c) (ec_rc c') new /\
        eseq m is st = Ok (ENext {| es_regs := new ++ es_regs st; es_snk := es_snk st |}) /\
        einv (ec_rc c') (escans is m) (new ++ es_regs st) en' A
    | Err e => eseq m is st = Err e | Panic => eseq m is st = Panic | Hang => eseq m is st = Hang
    end.
  Lemma rdone_refl T c : rdone T c c [].
  Proof. split; [lia|]. split; [reflexivity|]. split; [reflexivity|]. exists []. split; [reflexivity|constructor]. Qed.
  Lemma rdone_tail (f : fattr * ty) l c c' is : rdone (fnames l) c c' is -> rdone (fnames (f :: l)) c c' is.
  Proof.
    intros (L & M1 & M2 & leak & Sc & Fl). split; [assumption|]. split; [assumption|]. split; [assumption|]. exists leak. split; [assumption|].
    eapply Forall_impl; [|exact Fl]. cbn beta. intros nr (X1 & X2). split; [right|]; assumption.
  Qed.
  Lemma rdone_app T c c1 c' i j : rdone T c c1 i -> rdone T c1 c' j -> rdone T c c' (i ++ j).
  Proof.
    intros (L & M1 & M2 & leak & Sc & Fl) (L' & M1' & M2' & leak' & Sc' & Fl'). split; [lia|]. split; [congruence|]. split; [congruence|].
    exists (leak' ++ leak). split; [intros m; rewrite escans_app, Sc, Sc', <- app_assoc; reflexivity|]. apply Forall_app. split; [assumption|].
    eapply Forall_impl; [|exact Fl]. cbn beta. intros nr (X1 & X2). split; [assumption|lia].
  Qed.
  Lemma rsim_app is1 is2 c c1 c' m st A (r1 : res ioerr env) (f : env -> res ioerr env) :
    (ec_rc c <= ec_rc c1)%nat -> (ec_rc c1 <= ec_rc c')%nat -> rsim is1 c c1 m st A r1 ->
    (forall en' new, r1 = Ok en' -> keys_in (ec_rc c) (ec_rc c1) new -> einv (ec_rc c1) (escans is1 m) (new ++ es_regs st) en' A ->
       rsim is2 c1 c' (escans is1 m) {| es_regs := new ++ es_regs st; es_snk := es_snk st |} A (f en')) ->
    rsim (is1 ++ is2) c c' m st A (bind r1 f).
  Proof.
    intros L1 L2 H1 H2. unfold rsim in *. destruct r1 as [en'| | |]; cbn [bind]; try (rewrite eseq_app, H1; reflexivity).
    destruct H1 as (new & K & E & HI). specialize (H2 en' new eq_refl K HI). rewrite !eseq_app, !E. cbn [bind].
    destruct (f en') as [en2| | |]; try exact H2. destruct H2 as (new2 & K2 & E2 & HI2). exists (new2 ++ new).
    split; [apply keys_in_app; eapply keys_in_weaken; eauto; lia|]. cbn [es_regs es_snk] in *. rewrite <- app_assoc, escans_app. auto.
  Qed.
  (** One reference is set to a fresh register. *)
  Lemma rsim_one is c c' m st en (A : string -> Prop) n (x : res ioerr val) : einv (ec_rc c) m (es_regs st) en A -> ec_rc c' = S (ec_rc c) ->
    eseq m is st = (let! v := x in Ok (ENext (elet (ec_rc c) v st))) -> (forall m, escans is m = (n, ec_rc c) :: m) ->
    rsim is c c' m st A (let! v := x in Ok ((n, v) :: en)).
  Proof.
    intros HI E1 E Sc. unfold rsim. rewrite !E. destruct x as [v| | |]; cbn [bind]; try reflexivity.
    exists [(ec_rc c, v)]. split; [constructor; [cbn; lia|constructor]|]. split; [reflexivity|]. rewrite Sc, E1.
    eapply einv_sub; [apply (einv_set (S (ec_rc c)) m ((ec_rc c, v) :: es_regs st) en A n (ec_rc c) v)|].
    - apply einv_cons; [assumption|lia].
    - cbn. rewrite Nat.eqb_refl. reflexivity.
    - lia.
    - intros y Hy. left. exact Hy.
  Qed.

  Definition stored (f : fattr * ty) : bool := negb (is_some (fa_calc (fst f))) && negb (fa_pad (fst f)).
  Fixpoint refs' (l : list (fattr * ty)) (v : val) (en : env) : res ioerr env :=
    match l with
    | [] => Ok en
    | (a, t) :: l =>
        if is_some (fa_calc a) || fa_pad a then refs' l v en
        else let! en := (let! x := (let! fs := fields_of v in of_some (lookup (fa_name a) fs)) in Ok ((fa_name a, x) :: en)) in refs' l v en
    end.
  Lemma refs'_struct l n fs : forall en, refs' l (VStruct n fs) en = se_refs l fs en.
  Proof.
    induction l as [|[a t] l IH]; intros en; cbn [refs' se_refs]; [reflexivity|]. destruct (is_some (fa_calc a) || fa_pad a); [apply IH|].
    cbn [fields_of bind]. destruct (lookup (fa_name a) fs); cbn [of_some bind]; [apply IH|reflexivity].
  Qed.
  Lemma refs'_eq l v en : refs' l v en = if existsb stored l then let! fs := fields_of v in se_refs l fs en else Ok en.
  Proof.
    revert en. induction l as [|[a t] l IH]; intros en; cbn [refs' existsb]; [reflexivity|]. unfold stored at 1. cbn [fst].
    destruct (is_some (fa_calc a) || fa_pad a) eqn:E.
    - assert (X : negb (is_some (fa_calc a)) && negb (fa_pad a) = false) by (destruct (is_some (fa_calc a)), (fa_pad a); auto; discriminate).
      rewrite X. cbn [orb]. rewrite IH. destruct (existsb stored l); [|reflexivity]. destruct v; cbn [fields_of bind]; try reflexivity. cbn [se_refs]. rewrite E. reflexivity.
    - assert (X : negb (is_some (fa_calc a)) && negb (fa_pad a) = true) by (destruct (is_some (fa_calc a)), (fa_pad a); auto; discriminate).
      rewrite X. cbn [orb]. destruct v; cbn [fields_of bind]; try reflexivity. cbn [se_refs]. rewrite E.
      destruct (lookup (fa_name a) fs); cbn [of_some bind]; [apply refs'_struct|reflexivity].
  Qed.

  Lemma enc_refs_ok l src : forall c is u c', enc_refs l src c = Some (is, u, c') -> (src < ec_rc c)%nat ->
    rdone (fnames l) c c' is /\
    forall m st en (A : string -> Prop) v, einv (ec_rc c) m (es_regs st) en A -> assoc src (es_regs st) = Some v ->
      rsim is c c' m st A (refs' l v en).
  Proof.
    induction l as [|[a t] l IH]; intros c is u c' H Hsrc; cbn [enc_refs] in H.
    - ert H. split; [apply rdone_refl|]. intros m st en A v HI _. exists []. split; [constructor|]. split; [destruct st; reflexivity|exact HI].
    - change (match fa_calc a with Some _ => true | None => false end) with (is_some (fa_calc a)) in H. cbn [refs'].
      destruct (is_some (fa_calc a) || fa_pad a).
      + destruct (IH _ _ _ _ H Hsrc) as (D & R). split; [apply rdone_tail; exact D|exact R].
      + ei H r c1 G. apply efresh_spec in H as (-> & -> & F1 & F2 & F3). ei G t1 c2 G1. etell G. ei G1 t2 c3 G2. etell G1. cbn [app].
        match goal with |- context [NGetField ?r ?s ?o :: NSetRef ?n ?r :: ?l] => change (NGetField r s o :: NSetRef n r :: l) with ([NGetField r s o; NSetRef n r] ++ l) end.
        assert (Hs1 : (src < ec_rc c1)%nat) by lia.
        destruct (IH _ _ _ _ G2 Hs1) as (D & R).
        assert (D0 : rdone (fnames ((a, t) :: l)) c c1 [NGetField (ec_rc c) src [FName (fa_name a)]; NSetRef (fa_name a) (ec_rc c)]).
        { split; [lia|]. split; [assumption|]. split; [assumption|]. exists [(fa_name a, ec_rc c)]. split; [reflexivity|].
          constructor; [|constructor]. cbn. split; [left; reflexivity|lia]. }
        split; [eapply rdone_app; [exact D0|apply rdone_tail; exact D]|].
        intros m st en A v HI Hv. destruct D as (L & _).
        apply (rsim_app _ _ c c1 c' m st A _ (fun en => refs' l v en)); [lia|lia| |].
        * apply rsim_one; [assumption|assumption| |reflexivity].
          rewrite eseq_cons. cbn [Encode.erun get_ops]. unfold ereg. rewrite Hv. cbn [of_some bind].
          destruct v; cbn [fields_of bind]; try reflexivity. destruct (lookup (fa_name a) fs); reflexivity.
        * intros en' new _ K HI'. apply R; cbn [es_regs]; [assumption|]. eapply (assoc_old (ec_rc c)); [exact Hsrc|exact Hv|exact K].
  Qed.

  Lemma enc_calcs_ok l : forall c is u c', enc_calcs l c = Some (is, u, c') ->
    rdone (fnames l) c c' is /\
    forall m st en (A : string -> Prop), einv (ec_rc c) m (es_regs st) en A -> (forall f, In f l -> forall n, In n (fvo (fa_calc (fst f))) -> A n) ->
      rsim is c c' m st A (se_calcs w inputs l en).
  Proof.
    induction l as [|[a t] l IH]; intros c is u c' H; cbn [enc_calcs] in H.
    - ert H. split; [apply rdone_refl|]. intros m st en A HI _. exists []. split; [constructor|]. split; [destruct st; reflexivity|exact HI].
    - cbn [se_calcs]. destruct (fa_calc a) as [e|] eqn:Ec.
      + destruct (blen_calls e) as [[|c0 cs]|]; [|destruct (IH _ _ _ _ H) as (D & R); split; [apply rdone_tail; exact D|]; intros m st en A HI HA; apply R; [assumption|]; intros f Hf; apply HA; right; exact Hf|discriminate].
        ei H r c1 G. apply eeval_spec in H as (-> & -> & F1 & F2 & F3). ei G t1 c2 G1. etell G. cbn [app].
        match goal with |- context [NEval ?r ?e :: NSetRef ?n ?r :: ?l] => change (NEval r e :: NSetRef n r :: l) with ([NEval r e; NSetRef n r] ++ l) end.
        destruct (IH _ _ _ _ G1) as (D & R).
        assert (D0 : rdone (fnames ((a, t) :: l)) c c1 [NEval (ec_rc c) e; NSetRef (fa_name a) (ec_rc c)]).
        { split; [lia|]. split; [assumption|]. split; [assumption|]. exists [(fa_name a, ec_rc c)]. split; [reflexivity|].
          constructor; [|constructor]. cbn. split; [left; reflexivity|lia]. }
        split; [eapply rdone_app; [exact D0|apply rdone_tail; exact D]|].
        intros m st en A HI HA. destruct D as (L & _).
        replace (let! v := ev en e in se_calcs w inputs l ((fa_name a, v) :: en)) with
          (let! en := (let! v := ev en e in Ok ((fa_name a, v) :: en)) in se_calcs w inputs l en) by (rewrite bind_assoc; reflexivity).
        apply (rsim_app _ _ c c1 c' m st A _ (fun en => se_calcs w inputs l en)); [lia|lia| |].
        * apply rsim_one; [assumption|assumption| |reflexivity].
          change [NEval (ec_rc c) e; NSetRef (fa_name a) (ec_rc c)] with ([NEval (ec_rc c) e] ++ [NSetRef (fa_name a) (ec_rc c)]).
          rewrite eseq_app, (eeval_run e m _ st en (ec_rc c) A HI).
          -- destruct (ev en e); reflexivity.
          -- intros n Hn. apply (HA (a, t) (or_introl eq_refl)). cbn [fst]. rewrite Ec. exact Hn.
        * intros en' new _ K HI'. apply R; cbn [es_regs]; [assumption|]. intros f Hf. apply HA. right. exact Hf.
      + destruct (IH _ _ _ _ H) as (D & R). split; [apply rdone_tail; exact D|]. intros m st en A HI HA. apply R; [assumption|]. intros f Hf. apply HA. right. exact Hf.
  Qed.

  (** Items after code that set up the references. *)
  Lemma items_after vis items T : ewf vis (TCont None false items) = true ->
    incl (leaf_names (flatten_items items) ++ map blen_name (all_conts items)) T ->
    forall tgt src c c1 i u is c', rdone T c c1 i -> enc_items (map gitem items) tgt src false [] c1 = Some (is, u, c') ->
    old_key (ec_rc c) (key tgt) -> bk items None c ->
    ldone (all_conts items) (fun n => In n T) c c' (i ++ is) /\
    forall m st (A : string -> Prop) (r : res ioerr env), rsim i c c1 m st A r -> (forall n, In n (vis ++ leaf_names (flatten_items items)) -> A n) ->
      regs_lt (ec_rc c) (es_regs st) -> writable (key tgt) (es_snk st) ->
      esim (i ++ is) (key tgt) (ec_rc c) (ec_rc c') m st (es_snk st)
        (let! en := r in se_items (map sitem items) en false [] [] None) any.
  Proof.
    intros Hwf HT tgt src c c1 i u is c' (L0 & M1 & M2 & leak & Sc & Fl) G Ho Hb.
    assert (Hk : Forall (fun f => fa_pad (fst f) = false -> kspec f (enc_complex p rf false (fst f) (snd f)) (se_complex (fst f) (snd f)) (vis ++ leaf_names items)) items).
    { cbn [ewf] in Hwf. rewrite !andb_true_iff in Hwf. destruct Hwf as (_ & Hfs). rewrite forallb_forall in Hfs.
      apply Forall_forall. intros [a t] Hf Hp. apply enc_complex_ok; [exact Hp|]. apply Hfs in Hf. apply andb_true_iff in Hf. tauto. }
    assert (G' : (do _ <- (if false then enc_nullchecks items else gret tt); enc_items (map gitem items) tgt src false []) c1 = Some (is, u, c')).
    { unfold gbind. cbn [gret]. rewrite G. reflexivity. }
    assert (Ho1 : old_key (ec_rc c1) (key tgt)) by (eapply old_key_le; [exact Ho|lia]).
    assert (Hb1 : bk items None c1) by (destruct Hb as (B1 & B2); split; [assumption|]; rewrite M1, M2; assumption).
    destruct (inner_ok vis items Hwf Hk tgt src false c1 is u c' G' Ho1 Hb1) as (D & R).
    apply idone_ldone in D as (L & (lr & R1 & R2) & Hpn & leak2 & Sc2 & Fl2).
    split.
    { split; [lia|]. split; [exists lr; split; [congruence|assumption]|]. split; [intros n; rewrite Hpn, M2; reflexivity|].
      exists (leak2 ++ leak). split; [intros m; rewrite escans_app, Sc, Sc2, <- app_assoc; reflexivity|]. apply Forall_app. split.
      - eapply Forall_impl; [|exact Fl2]. cbn beta. intros nr (X1 & X2). split; [apply HT|]; assumption.
      - eapply Forall_impl; [|exact Fl]. cbn beta. intros nr (X1 & X2). split; [assumption|lia]. }
    intros m st A r Hr HA Hlt HW. unfold rsim in Hr. apply esim_bind_err.
    { destruct r; try exact I; rewrite eseq_app, Hr; reflexivity. }
    intros en ->. destruct Hr as (new & K & E & HI).
    eapply (esim_after i new _ (key tgt) (ec_rc c) (ec_rc c1) (ec_rc c')) with (Q := any); [exact E|exact K|lia|lia| |intros; exact I].
    specialize (R (escans i m) {| es_regs := new ++ es_regs st; es_snk := es_snk st |} en A HI HA).
    apply R; cbn [es_regs es_snk]; [eapply regs_lt_app; eauto|exact HW].
  Qed.

  Lemma struct_ok items : ewf [] (TCont None false items) = true -> NoDup (all_conts items) ->
    forall tgt src c is u c',
    (do _ <- (do _ <- enc_refs (flatten_items items) src; enc_calcs (flatten_items items)); enc_items (map gitem items) tgt src false []) c = Some (is, u, c') ->
    old_key (ec_rc c) (key tgt) -> (src < ec_rc c)%nat -> ec_resolved c = [] -> ec_pending c = [] ->
    ldone (all_conts items) (fun n => In n (fnames (flatten_items items) ++ leaf_names (flatten_items items) ++ map blen_name (all_conts items))) c c' is /\
    forall st v, assoc src (es_regs st) = Some v -> regs_lt (ec_rc c) (es_regs st) -> writable (key tgt) (es_snk st) ->
      esim is (key tgt) (ec_rc c) (ec_rc c') [] st (es_snk st) (se_struct w p rf inputs None srec items v) any.
  Proof.
    intros Hwf ND tgt src c is u c' H Ho Hsrc E1 E2. ein H t1 c1 G i1 i2. ein H t2 c2 G1 i3 i4.
    destruct (enc_refs_ok _ _ _ _ _ _ H Hsrc) as (D1 & R1). destruct (enc_calcs_ok _ _ _ _ _ G1) as (D2 & R2).
    set (T := fnames (flatten_items items) ++ leaf_names (flatten_items items) ++ map blen_name (all_conts items)).
    assert (D : rdone T c c1 (i3 ++ i4)).
    { pose proof (rdone_app _ _ _ _ _ _ D1 D2) as (L & M1 & M2 & leak & Sc & Fl). split; [assumption|]. split; [assumption|]. split; [assumption|].
      exists leak. split; [assumption|]. eapply Forall_impl; [|exact Fl]. cbn beta. intros nr (X1 & X2). split; [|assumption]. unfold T. apply in_app_iff. left. exact X1. }
    assert (HT : incl (leaf_names (flatten_items items) ++ map blen_name (all_conts items)) T) by (apply incl_appr; apply incl_refl).
    assert (Hb : bk items None c) by (split; [assumption|]; intros n _; rewrite E1, E2; auto).
    destruct (items_after [] items T Hwf HT tgt src c c1 (i3 ++ i4) u i2 c' D G Ho Hb) as (D3 & R3).
    split; [exact D3|]. intros st v Hv Hlt HW.
    assert (HI : einv (ec_rc c) [] (es_regs st) [] (fun _ => True)) by (split; [constructor|reflexivity]).
    specialize (R1 [] st [] (fun _ => True) v HI Hv).
    destruct D1 as (L1 & _). destruct D2 as (L2 & _).
    assert (Rs : rsim (i3 ++ i4) c c1 [] st (fun _ => True) (let! en := refs' (flatten_items items) v [] in se_calcs w inputs (flatten_items items) en)).
    { apply (rsim_app _ _ c c2 c1 [] st (fun _ => True) _ (fun en => se_calcs w inputs (flatten_items items) en)); [assumption|assumption|exact R1|].
      intros en' new _ K HI'. apply R2; cbn [es_regs]; auto. }
    eapply esim_eq; [apply (R3 [] st (fun _ => True) _ Rs); auto|].
    unfold se_struct. rewrite refs'_eq. rewrite bind_assoc. reflexivity.
  Qed.

  (** *** Tagged declarations *)
  Lemma se_xs_map {B C} (h : B -> C) en xs (k : res ioerr (list Z * B)) :
    se_xs en xs (let! (b, a) := k in Ok (b, h a)) = let! (b, a) := se_xs en xs k in Ok (b, h a).
  Proof.
    induction xs as [|x xs IH]; cbn [Spec.se_xs]; [reflexivity|]. rewrite bind_assoc. apply bind_ext. intros c. destruct c; [|exact IH].
    rewrite bind_assoc. apply bind_ext. intros vs. rewrite IH, !bind_assoc. apply bind_ext. intros [b a]. cbn [bind refuse]. rewrite bind_assoc. reflexivity.
  Qed.

  Definition gvitem (f : fattr * ty) : evitem :=
    (fst f, snd f, enc_complex p rf false (fst f) (snd f),
     match snd f with TCont _ _ sub => map gitem sub | _ => [] end).
  Definition svariant (name : string) (f : fattr * ty) (v : val) : res ioerr (list Z * val) :=
    let '(a, t) := f in
    match v with
    | VVariant n d x =>
        if String.eqb name n then
          if String.eqb (fa_name a) d then
            if is_cont t then Panic else
            let! (b, vs) := se_xs [] (fa_xs a) (se_complex a t [] x false false) in
            match vs with
            | (_, x') :: _ => Ok (b, VVariant name (fa_name a) x')
            | [] => Panic
            end
          else Err EEncode
        else Panic
    | VVariantS n d fs =>
        if String.eqb name n then
          if String.eqb (fa_name a) d then
            match t with
            | TCont len _ sub =>
                let! en := (let! l := mapM (fun n => let! x := of_some (lookup n fs) in Ok (n, x)) (leaf_names (flatten_items sub)) in
                            Ok (rev l)) in
                let! en := se_calcs w inputs (flatten_items sub) en in
                let! (b, vs) := se_items (map sitem sub) en false [] [] None in
                Ok (b, VVariantS name (fa_name a) vs)
            | _ => Panic
            end
          else Err EEncode
        else Panic
    | _ => Panic
    end.
  Lemma se_variants_cons name f items v : se_variants w p rf inputs None srec name (f :: items) v =
    let! c := match fa_cond (fst f) with Some e => let! v := ev [] e in bool_of v | None => Ok true end in
    if c then svariant name f v else se_variants w p rf inputs None srec name items v.
  Proof. destruct f as [a t]. reflexivity. Qed.

  (** A piece of code that ends in [break]. *)
  Definition bsim {B} (code : list einstr) (t : option nat) (m : rmap) (st : est) (r : res ioerr (list Z * B)) : Prop :=
    match r with
    | Ok (b, a) => exists new g base', wr t b (es_snk st) = Some base'
        /\ eseq m code st = Ok (EBrk {| es_regs := new ++ es_regs st; es_snk := g ++ base' |})
    | Err e => eseq m code st = Err e | Panic => eseq m code st = Panic | Hang => eseq m code st = Hang
    end.
  Lemma esim_break {B} code t lo hi m st (r : res ioerr (list Z * B)) Q : esim code t lo hi m st (es_snk st) r Q -> bsim (code ++ [NBreak]) t m st r.
  Proof.
    unfold esim, bsim. rewrite !eseq_app. destruct r as [[b a]| | |]; intros H; try (rewrite H; reflexivity).
    destruct H as (new & g & base' & _ & _ & W & E & _). exists new, g, base'. split; [assumption|]. rewrite E. reflexivity.
  Qed.

  Lemma enc_names_ok l : forall c is rs c', enc_names l c = Some (is, rs, c') ->
    is = [] /\ (ec_rc c <= ec_rc c')%nat /\ ec_resolved c' = ec_resolved c /\ ec_pending c' = ec_pending c /\ map fst rs = leaf_names l /\
    Forall (fun nr => (ec_rc c <= snd nr < ec_rc c')%nat) rs /\
    forall m st en (A : string -> Prop) (fs : list (string * val)), einv (ec_rc c) m (es_regs st) en A ->
      match mapM (fun n => let! x := of_some (lookup n fs) in Ok (n, x)) (leaf_names l) with
      | Ok vl => exists vs, mapM (fun nr => let! x := of_some (lookup (fst nr) fs) in Ok (snd nr, x)) rs = Ok vs /\
          keys_in (ec_rc c) (ec_rc c') vs /\
          einv (ec_rc c') (rev rs ++ m) (rev vs ++ es_regs st) (rev vl ++ en) (fun x => A x \/ In x (leaf_names l))
      | Err e => mapM (fun nr => let! x := of_some (lookup (fst nr) fs) in Ok (snd nr, x)) rs = Err e
      | Panic => mapM (fun nr => let! x := of_some (lookup (fst nr) fs) in Ok (snd nr, x)) rs = Panic
      | Hang => mapM (fun nr => let! x := of_some (lookup (fst nr) fs) in Ok (snd nr, x)) rs = Hang
      end.
  Proof.
    induction l as [|[a t] l IH]; intros c is rs c' H; cbn [enc_names] in H.
    - ert H. split; [reflexivity|]. split; [lia|]. do 2 (split; [reflexivity|]). split; [reflexivity|]. split; [constructor|].
      intros m st en A fs HI. cbn. exists []. split; [reflexivity|]. split; [constructor|]. cbn. eapply einv_sub; [exact HI|]. intros n [Hn|[]]. exact Hn.
    - assert (El : leaf_names ((a, t) :: l) = if fa_pad a || is_cont t then leaf_names l else fa_name a :: leaf_names l).
      { unfold leaf_names. cbn [filter]. unfold leaf at 1. cbn [fst snd]. destruct (fa_pad a || is_cont t); reflexivity. }
      rewrite El. clear El. destruct (fa_pad a || is_cont t).
      + apply IH in H. exact H.
      + ein H r c1 G i1 i2. apply efresh_spec in H as (-> & -> & F1 & F2 & F3). ein G rs' c2 G1 i3 i4. ert G1.
        destruct (IH _ _ _ _ G) as (-> & L & M1 & M2 & E1 & Fr & R). split; [reflexivity|]. split; [lia|]. split; [congruence|]. split; [congruence|].
        cbn [map fst]. split; [rewrite E1; reflexivity|]. split.
        { constructor; [cbn; lia|]. eapply Forall_impl; [|exact Fr]. cbn. intros. lia. }
        intros m st en A fs HI. cbn [mapM fst snd].
        destruct (lookup (fa_name a) fs) as [x|]; cbn [of_some bind]; [|reflexivity].
        assert (HI1 : einv (ec_rc c1) ((fa_name a, ec_rc c) :: m) ((ec_rc c, x) :: es_regs st) ((fa_name a, x) :: en) (fun y => A y \/ y = fa_name a)).
        { apply einv_set; [apply einv_cons; [assumption|lia]|cbn; rewrite Nat.eqb_refl; reflexivity|lia]. }
        specialize (R ((fa_name a, ec_rc c) :: m) {| es_regs := (ec_rc c, x) :: es_regs st; es_snk := es_snk st |} ((fa_name a, x) :: en) _ fs HI1).
        destruct (mapM (fun n => let! x := of_some (lookup n fs) in Ok (n, x)) (leaf_names l)) as [vl| | |]; cbn [bind]; try (rewrite R; reflexivity).
        destruct R as (vs & -> & K & HI2). exists ((ec_rc c, x) :: vs). cbn [bind]. split; [reflexivity|]. split.
        { constructor; [cbn; lia|]. eapply keys_in_weaken; [exact K|lia|lia]. }
        cbn [rev es_regs] in *. rewrite <- !app_assoc. cbn [app]. eapply einv_sub; [exact HI2|].
        intros n [Hn|[<-|Hn]]; auto.
  Qed.
  Lemma enc_setrefs_ok rs : forall c is u c', enc_setrefs rs c = Some (is, u, c') ->
    c' = c /\ (forall m, escans is m = rev rs ++ m) /\ (forall m st, eseq m is st = Ok (ENext st)).
  Proof.
    induction rs as [|[n r] rs IH]; intros c is u c' H; cbn [enc_setrefs] in H.
    - ert H. split; [reflexivity|]. split; reflexivity.
    - ein H t1 c1 G i1 i2. etell H. destruct (IH _ _ _ _ G) as (-> & Sc & R). split; [reflexivity|]. split.
      + intros m. cbn. rewrite Sc, <- app_assoc. reflexivity.
      + intros m st. cbn [app]. rewrite eseq_cons. cbn [Encode.erun bind]. apply R.
  Qed.

  Definition vdone (X : list string) (c c' : ectx) (is : list einstr) : Prop :=
    (ec_rc c <= ec_rc c')%nat
    /\ (exists lr, ec_resolved c' = lr ++ ec_resolved c /\ incl (map fst lr) X)
    /\ (forall n, mem n (ec_pending c') = mem n (ec_pending c))
    /\ exists leak, (forall m, escans is m = leak ++ m) /\ Forall (fun nr => (snd nr < ec_rc c')%nat) leak.

  Definition vwf (f : fattr * ty) : bool :=
    negb (fa_pad (fst f)) && attr_ok [] f && ewf [] (snd f)
    && forallb (fun g => subset (fvo (fa_calc (fst g))) (leaf_names (flatten_ty (snd f)))) (flatten_ty (snd f)).

  Lemma variant_ok name f : vwf f = true -> NoDup (cnames f) ->
    forall buf src c is u c', enc_variant name (gvitem f) buf src c = Some (is, u, c') ->
    old_key (ec_rc c) (key buf) -> (src < ec_rc c)%nat -> (forall n, In n (cnames f) -> lookup n (ec_resolved c) = None) -> (forall n, mem n (ec_pending c) = false) ->
    vdone (cnames f) c c' is /\
    forall m st v, Forall (fun kv => (snd kv < ec_rc c)%nat) m -> assoc src (es_regs st) = Some v -> regs_lt (ec_rc c) (es_regs st) -> writable (key buf) (es_snk st) ->
      bsim is (key buf) m st (svariant name f v).
  Proof.
    destruct f as [a t]. unfold vwf. cbn [fst snd]. intros Hv ND buf src c is u c' H Ho Hsrc Hres Hpn. rewrite !andb_true_iff in Hv. destruct Hv as (((V1 & V2) & V3) & V4).
    assert (Hp : fa_pad a = false) by (destruct (fa_pad a); [discriminate|reflexivity]).
    unfold gvitem, enc_variant in H. cbn [fst snd] in H. ein H uw c1 G j1 j2. apply efresh_spec in H as (-> & -> & F1 & F2 & F3). cbn [app].
    destruct (is_cont t) eqn:Hc.
    - destruct t as [| | | | | | | | |len tg sub]; try discriminate Hc. rewrite !flatten_ty_cont in *.
      ein G rs c2 G1 i1 i1'. destruct (enc_names_ok _ _ _ _ _ G) as (-> & L1 & M1 & M2 & En & Fr & Rn).
      ein G1 t1 c3 G2 i2 i2'. etell G1. ein G2 t2 c4 G3 i3 i3'. destruct (enc_setrefs_ok _ _ _ _ _ G2) as (-> & Sc3 & R3).
      ein G3 t3 c5 G4 i4 i4'. destruct (enc_calcs_ok _ _ _ _ _ G3) as (D4 & R4). ein G4 t4 c6 G5 i5 i5'. etell G5. cbn [app].
      assert (Htg : tg = false) by (cbn [ewf] in V3; destruct tg; [discriminate|reflexivity]). subst tg.
      assert (Hwf1 : ewf [] (TCont None false sub) = true).
      { cbn [ewf] in V3 |- *. rewrite !andb_true_iff in V3 |- *. tauto. }
      assert (Hcn : cnames (a, TCont len false sub) = fa_name a :: all_conts sub).
      { unfold cnames. cbn [fst snd is_cont]. rewrite conts_all. reflexivity. }
      rewrite Hcn in *. inversion ND as [|? ? ND1 ND2]; subst.
      assert (Hb2 : bk sub None c2).
      { split; [assumption|]. intros n Hn. rewrite M1, M2, F2, F3. split; [apply Hres; right; exact Hn|apply Hpn]. }
      set (T := fnames (flatten_items sub) ++ leaf_names (flatten_items sub) ++ map blen_name (all_conts sub)).
      assert (D4' : rdone T c2 c5 i4).
      { destruct D4 as (L & M3 & M4 & leak & Sc & Fl). split; [assumption|]. split; [assumption|]. split; [assumption|].
        exists leak. split; [assumption|]. eapply Forall_impl; [|exact Fl]. cbn beta. intros nr (X1 & X2). split; [|assumption]. unfold T. apply in_app_iff. left. exact X1. }
      assert (Ho2 : old_key (ec_rc c2) (key buf)) by (eapply old_key_le; [exact Ho|lia]).
      destruct (items_after [] sub T Hwf1 ltac:(apply incl_appr; apply incl_refl) buf src c2 c5 i4 _ _ _ D4' G4 Ho2 Hb2) as (D5 & R5).
      destruct D5 as (L5 & (lr & E1 & E2) & Hp5 & leak & Sc5 & Fl5).
      replace (NUnwrapEnumS name (fa_name a) src rs :: i3 ++ i4 ++ i5 ++ [NBreak]) with
        (NUnwrapEnumS name (fa_name a) src rs :: i3 ++ (i4 ++ i5) ++ [NBreak]) by (rewrite <- !app_assoc; reflexivity).
      split.
      { split; [lia|]. split; [exists lr; split; [rewrite E1, M1, F2; reflexivity|apply incl_tl; assumption]|].
        split; [intros n; rewrite Hp5, M2, F3; reflexivity|]. exists (leak ++ rev rs). split.
        - intros m. cbn [escans escan]. rewrite escans_app, Sc3, escans_app, Sc5. cbn. rewrite <- app_assoc. reflexivity.
        - apply Forall_app. split; [eapply Forall_impl; [|exact Fl5]; cbn; tauto|]. apply Forall_rev. eapply Forall_impl; [|exact Fr]. cbn. intros. lia. }
      intros m st v Hm Hv Hlt HW.
      set (code := i3 ++ (i4 ++ i5) ++ [NBreak]).
      assert (Er : eseq m (NUnwrapEnumS name (fa_name a) src rs :: code) st =
        match v with
        | VVariantS n' d' fs =>
            if String.eqb name n' then
              if String.eqb (fa_name a) d' then
                let! vs := mapM (fun nr => let! x := of_some (lookup (fst nr) fs) in Ok (snd nr, x)) rs in
                eseq m code {| es_regs := rev vs ++ es_regs st; es_snk := es_snk st |}
              else Err EEncode
            else Panic
        | VVariant n' d' _ => if String.eqb name n' then if String.eqb (fa_name a) d' then Panic else Err EEncode else Panic
        | _ => Panic
        end).
      { rewrite eseq_cons. cbn [Encode.erun escan]. unfold ereg. rewrite Hv. cbn [of_some bind]. destruct v as [| | | | | | | | | | |n' d x|n' d fs]; try reflexivity.
        - destruct (String.eqb name n'); [|reflexivity]. destruct (String.eqb (fa_name a) d); reflexivity.
        - destruct (String.eqb name n'); [|reflexivity]. destruct (String.eqb (fa_name a) d); [|reflexivity]. cbn [bind].
          destruct (mapM _ rs); reflexivity. }
      unfold svariant. cbn [is_cont].
      destruct v as [| | | | | | | | | | |n d x|n d fs]; try exact Er; destruct (String.eqb name n); try exact Er; destruct (String.eqb (fa_name a) d); try exact Er.
      assert (HI0 : einv (ec_rc c1) m (es_regs st) [] (fun _ => False)).
      { split; [|intros ? []]. eapply Forall_impl; [|exact Hm]. cbn. intros. lia. }
      specialize (Rn m st [] (fun _ => False) fs HI0).
      destruct (mapM (fun n => let! x := of_some (lookup n fs) in Ok (n, x)) (leaf_names (flatten_items sub))) as [vl| | |]; cbn [bind];
        try (rewrite Rn in Er; exact Er).
      destruct Rn as (vs & Evs & K & HI1). rewrite Evs in Er. cbn [bind] in Er. rewrite app_nil_r in HI1.
      set (st1 := {| es_regs := rev vs ++ es_regs st; es_snk := es_snk st |}) in *.
      assert (R4' := R4 (rev rs ++ m) st1 (rev vl) _ HI1).
      assert (HA4 : forall f, In f (flatten_items sub) -> forall n, In n (fvo (fa_calc (fst f))) -> False \/ In n (leaf_names (flatten_items sub))).
      { intros f Hf n0 Hn. right. rewrite forallb_forall in V4. apply V4 in Hf. apply (subset_incl _ _ Hf). exact Hn. }
      specialize (R4' HA4).
      assert (Hk1 : keys_in (ec_rc c1) (ec_rc c2) (rev vs)) by (apply Forall_rev; exact K).
      assert (Hlt1 : regs_lt (ec_rc c2) (es_regs st1)).
      { apply (regs_lt_app (ec_rc c1)); [exact Hk1| |lia]. eapply regs_lt_mono; [exact Hlt|lia]. }
      assert (R5' := R5 (rev rs ++ m) st1 _ _ R4' ltac:(intros n0 Hn; right; exact Hn) Hlt1 HW).
      assert (Ecode : forall X, eseq m code st1 = X <-> eseq (rev rs ++ m) ((i4 ++ i5) ++ [NBreak]) st1 = X).
      { intros X. unfold code. rewrite eseq_app, R3. cbn [bind]. rewrite Sc3. tauto. }
      apply (esim_break _ _ _ _ _ _ _ _) in R5'. unfold bsim in *. rewrite !Er.
      destruct (se_calcs w inputs (flatten_items sub) (rev vl)) as [en| | |]; cbn [bind] in *; try (apply Ecode; exact R5').
      destruct (se_items (map sitem sub) en false [] [] None) as [[b vs']| | |]; cbn [bind] in *; try (apply Ecode; exact R5').
      destruct R5' as (new & g & base' & W & E). exists (new ++ rev vs), g, base'. split; [exact W|]. apply Ecode. rewrite E. cbn [st1 es_regs]. rewrite <- app_assoc. reflexivity.
    - ein G t1 c2 G1 i1 i1'. etell G. ein G1 t2 c3 G2 i2 i2'. etell G2. cbn [app].
      assert (Ha : attr_ok [] (a, t) = true) by exact V2. unfold attr_ok in Ha. cbn [fst snd] in Ha. apply andb_true_iff in Ha as (Ha & _).
      assert (Hxs : subset (xs_fv (fa_xs a)) [] = true) by (unfold subset in *; rewrite forallb_app in Ha; apply andb_true_iff in Ha; tauto).
      assert (Hk : fa_pad a = false -> kspec (a, t) (enc_complex p rf false a t) (se_complex a t) []) by (intros _; apply enc_complex_ok; assumption).
      assert (Ho1 : old_key (ec_rc c1) (key buf)) by (eapply old_key_le; [exact Ho|lia]).
      assert (Hs1 : is_cont t || fa_pad a = false -> (ec_rc c < ec_rc c1)%nat) by (intros _; lia).
      assert (Hcn : cnames (a, t) = []) by (unfold cnames; cbn [snd]; rewrite Hc; reflexivity).
      assert (Hct : conts t = []) by (destruct t; try discriminate Hc; reflexivity).
      assert (Hr : ready (a, t) c1 false).
      { split; [rewrite Hcn; intros ? []|]. cbn [snd fst]. split; [rewrite Hc; discriminate|]. split; [rewrite Hct; intros ? []|rewrite Hcn; constructor]. }
      destruct (enc_uncond_ok a t _ [] false false Hk Hxs V3 (or_intror eq_refl) buf (ec_rc c) false c1 i2 t2 c3 false G1 Ho1 Hs1 Hr)
        as ((L3 & (lr & R1 & R2 & _) & Hp3 & leak & Sc & Fl) & R).
      split.
      { split; [lia|]. split; [exists lr; split; [congruence|assumption]|]. split; [intros n; rewrite Hp3, F3; cbn; apply andb_true_r|].
        exists leak. split; [intros m; cbn [escans escan]; rewrite escans_app; apply Sc|]. eapply Forall_impl; [|exact Fl]. cbn. tauto. }
      intros m st v Hm Hv Hlt HW.
      assert (Er : eseq m (NUnwrapEnum name (fa_name a) src (ec_rc c) :: i2 ++ [NBreak]) st =
        match v with
        | VVariant n' d' x => if String.eqb name n' then if String.eqb (fa_name a) d' then eseq m (i2 ++ [NBreak]) (elet (ec_rc c) x st) else Err EEncode else Panic
        | VVariantS n' d' _ => if String.eqb name n' then if String.eqb (fa_name a) d' then Panic else Err EEncode else Panic
        | _ => Panic
        end).
      { rewrite eseq_cons. cbn [Encode.erun escan]. unfold ereg. rewrite Hv. cbn [of_some bind]. destruct v as [| | | | | | | | | | |n' d x|n' d fs]; try reflexivity.
        - destruct (String.eqb name n'); [|reflexivity]. destruct (String.eqb (fa_name a) d); reflexivity.
        - destruct (String.eqb name n'); [|reflexivity]. destruct (String.eqb (fa_name a) d); reflexivity. }
      unfold svariant.
      destruct v as [| | | | | | | | | | |n d x|n d fs]; try exact Er; destruct (String.eqb name n); try exact Er; destruct (String.eqb (fa_name a) d); try exact Er.
      2:{ destruct t; try exact Er. discriminate Hc. }
      rewrite Hc.
      assert (HI0 : einv (ec_rc c1) m (es_regs (elet (ec_rc c) x st)) [] (fun _ => False)).
      { split; [|intros ? []]. eapply Forall_impl; [|exact Hm]. cbn. intros. lia. }
      specialize (R m (elet (ec_rc c) x st) [] (fun _ => False) x HI0).
      assert (Hlf : leaf_names (flatten_ty t) = []) by (destruct t; try discriminate Hc; reflexivity).
      rewrite Hlf in R. specialize (R ltac:(intros ? [])). cbn [elet es_regs es_snk assoc] in R. rewrite Nat.eqb_refl in R.
      specialize (R ltac:(reflexivity) ltac:(constructor; [cbn; lia|eapply regs_lt_mono; [exact Hlt|lia]]) HW). cbn [andb bind] in R.
      assert (Ews : (let! (b, a0) := se_xs [] (fa_xs a) (with_len (se_complex a t [] x false false)) in Ok (b, fst a0)) = se_xs [] (fa_xs a) (se_complex a t [] x false false)).
      { rewrite <- se_xs_map. unfold with_len. rewrite bind_assoc. f_equal. destruct (se_complex a t [] x false false) as [[? ?]| | |]; reflexivity. }
      rewrite <- Ews. apply (esim_break _ _ _ _ _ (elet (ec_rc c) x st)) in R. unfold bsim in *. cbn [es_snk es_regs] in *.
      rewrite !Er. unfold elet in *.
      assert (Hne : forall b vs n, se_xs [] (fa_xs a) (with_len (se_complex a t [] x false false)) = Ok (b, (vs, n)) -> exists v', vs = [(fa_name a, v')]).
      { intros b vs n9 E.
        assert (E2 : se_xs [] (fa_xs a) (se_complex a t [] x false false) = Ok (b, vs)) by (rewrite <- Ews, E; reflexivity).
        assert (E3 : se_complex a t [] x false false = let! (b, v') := se_type [] t x in Ok (b, [(fa_name a, v')])).
        { destruct t; try discriminate Hc; cbn [Spec.se_complex]; rewrite Hp; reflexivity. }
        rewrite E3 in E2. pose proof (se_xs_map (fun v' => [(fa_name a, v')]) [] (fa_xs a) (se_type [] t x)) as E4.
        pose proof (eq_trans (eq_sym E4) E2) as E5. clear E2 E3 E4.
        destruct (se_xs [] (fa_xs a) (se_type [] t x)) as [[b0 v0]| | |]; cbn [bind] in E5; try discriminate. injection E5 as <- <-. eauto. }
      destruct (se_xs [] (fa_xs a) (with_len (se_complex a t [] x false false))) as [[b [vs n0]]| | |]; cbn [bind fst]; try exact R.
      destruct (Hne _ _ _ eq_refl) as (v' & ->). destruct R as (new & g & base' & W & E).
      exists (new ++ [(ec_rc c, x)]), g, base'. split; [exact W|]. rewrite E, <- app_assoc. reflexivity.
  Qed.

  Definition vsim {B} (code : list einstr) (t : option nat) (m : rmap) (st : est) (r : res ioerr (list Z * B)) : Prop :=
    match r with
    | Ok (b, a) => exists new g base', wr t b (es_snk st) = Some base'
        /\ (eseq m code st = Ok (ENext {| es_regs := new ++ es_regs st; es_snk := g ++ base' |})
            \/ eseq m code st = Ok (EBrk {| es_regs := new ++ es_regs st; es_snk := g ++ base' |}))
    | Err e => eseq m code st = Err e | Panic => eseq m code st = Panic | Hang => eseq m code st = Hang
    end.
  Lemma bsim_vsim {B} code rest t m st (r : res ioerr (list Z * B)) : bsim code t m st r -> vsim (code ++ rest) t m st r.
  Proof.
    unfold bsim, vsim. rewrite !eseq_app. destruct r as [[b a]| | |]; intros H; try (rewrite H; reflexivity).
    destruct H as (new & g & base' & W & E). exists new, g, base'. split; [assumption|]. right. rewrite E. reflexivity.
  Qed.
  Lemma vsim_after {B} pre new0 code t m st (r : res ioerr (list Z * B)) :
    eseq m pre st = Ok (ENext {| es_regs := new0 ++ es_regs st; es_snk := es_snk st |}) ->
    vsim code t (escans pre m) {| es_regs := new0 ++ es_regs st; es_snk := es_snk st |} r -> vsim (pre ++ code) t m st r.
  Proof.
    intros E H. unfold vsim in *. rewrite !eseq_app, !E. cbn [bind es_snk es_regs] in *. destruct r as [[b a]| | |]; try exact H.
    destruct H as (new & g & base' & W & E2). exists (new ++ new0), g, base'. rewrite <- app_assoc. auto.
  Qed.
  Lemma vsim_bind_err {A B} (x : res ioerr B) (f : B -> res ioerr (list Z * A)) code t m st :
    (match x with Ok _ => True | Err e => eseq m code st = Err e | Panic => eseq m code st = Panic | Hang => eseq m code st = Hang end) ->
    (forall v, x = Ok v -> vsim code t m st (f v)) ->
    vsim code t m st (bind x f).
  Proof. destruct x; cbn [bind]; auto. Qed.

  Lemma vdone_app X Y c c1 c' i j : vdone X c c1 i -> vdone Y c1 c' j -> vdone (X ++ Y) c c' (i ++ j).
  Proof.
    intros (L & (lr & E1 & E2) & Hp & leak & Sc & Fl) (L' & (lr' & E1' & E2') & Hp' & leak' & Sc' & Fl'). split; [lia|]. split.
    { exists (lr' ++ lr). rewrite E1', E1, <- app_assoc, map_app. split; [reflexivity|]. apply incl_app; [apply incl_appr|apply incl_appl]; assumption. }
    split; [intros n; rewrite Hp'; apply Hp|]. exists (leak' ++ leak). split; [intros m; rewrite escans_app, Sc, Sc', <- app_assoc; reflexivity|].
    apply Forall_app. split; [assumption|]. eapply Forall_impl; [|exact Fl]. cbn. intros. lia.
  Qed.

  Lemma variants_ok name items : forallb vwf items = true -> NoDup (all_conts items) ->
    forall buf src c is u c', enc_variants name (map gvitem items) buf src c = Some (is, u, c') ->
    old_key (ec_rc c) (key buf) -> (src < ec_rc c)%nat -> (forall n, In n (all_conts items) -> lookup n (ec_resolved c) = None) -> (forall n, mem n (ec_pending c) = false) ->
    vdone (all_conts items) c c' is /\
    forall m st v, Forall (fun kv => (snd kv < ec_rc c)%nat) m -> assoc src (es_regs st) = Some v -> regs_lt (ec_rc c) (es_regs st) -> writable (key buf) (es_snk st) ->
      vsim is (key buf) m st (se_variants w p rf inputs None srec name items v).
  Proof.
    induction items as [|f items IH]; intros Hwf ND buf src c is u c' H Ho Hsrc Hres Hpn.
    - cbn [map enc_variants] in H. ert H. split.
      { split; [lia|]. split; [exists []; split; [reflexivity|intros ? []]|]. split; [reflexivity|]. exists []. split; [reflexivity|constructor]. }
      intros m st v _ _ _ HW. cbn. exists [], [], (es_snk st). split; [exact HW|]. left. destruct st; reflexivity.
    - cbn [forallb] in Hwf. apply andb_true_iff in Hwf as (Hf & Hfs). cbn [all_conts flat_map] in *. fold (all_conts items) in *.
      apply NoDup_app_inv in ND as (N1 & N2 & N3). cbn [map enc_variants] in H. ein H o c1 G i1 i1'. ein G t1 c2 G1 i2 i2'.
      cbn [gvitem fst] in H. unfold enc_cond in H.
      (* the variant itself, with or without its condition *)
      assert (Hcond : exists c0 iv uv, enc_variant name (gvitem f) buf src c0 = Some (iv, uv, c2) /\
         ec_resolved c0 = ec_resolved c /\ ec_pending c0 = ec_pending c /\ (ec_rc c <= ec_rc c0)%nat /\
         match fa_cond (fst f) with
         | Some e => i1 ++ i2 = [NEval (ec_rc c) e; NCond (ec_rc c) iv] /\ ec_rc c0 = S (ec_rc c)
         | None => i1 ++ i2 = iv /\ c0 = c
         end).
      { destruct (fa_cond (fst f)) as [e|].
        - ein H r c3 H1 i3 i3'. ert H1. apply eeval_spec in H as (-> & -> & E1 & E2 & E3).
          ein G bu c4 G2 i4 i4'. destruct bu as [body bu]. apply block_some in G as (b1 & u1 & G & Eq & ->). injection Eq as -> ->. etell G2.
          exists c3, b1, u1. cbn [app]. split; [exact G|]. split; [assumption|]. split; [assumption|]. split; [lia|]. auto.
        - ert H. exists c, i2, t1. split; [exact G|]. auto. }
      clear H G. destruct Hcond as (c0 & iv & uv & G & X1 & X2 & X3 & X4).
      assert (Ho0 : old_key (ec_rc c0) (key buf)) by (eapply old_key_le; [exact Ho|lia]).
      assert (Hs0 : (src < ec_rc c0)%nat) by lia.
      destruct (variant_ok name f Hf N1 buf src c0 iv uv c2 G Ho0 Hs0) as (D & R).
      { intros n Hn. rewrite X1. apply Hres. apply in_app_iff. auto. }
      { intros n. rewrite X2. apply Hpn. }
      assert (D1 : vdone (cnames f) c c2 (i1 ++ i2)).
      { destruct D as (L & (lr & E1 & E2) & Hp & leak & Sc & Fl). split; [lia|]. split; [exists lr; split; [congruence|assumption]|].
        split; [intros n; rewrite Hp, X2; reflexivity|]. exists leak. split; [|assumption].
        intros m. destruct (fa_cond (fst f)); [destruct X4 as (-> & _); cbn [escans]; rewrite escan_cond; apply Sc|destruct X4 as (-> & _); apply Sc]. }
      assert (D1' := D1). destruct D1' as (L1 & (lr & E1 & E2) & Hp1 & leak & Sc1 & Fl1).
      destruct (IH Hfs N2 buf src c2 i2' u c' G1) as (D2 & R2).
      { eapply old_key_le; [exact Ho|lia]. }
      { lia. }
      { intros n Hn. rewrite E1, lookup_app. destruct (lookup n lr) as [r|] eqn:El.
        - exfalso. apply lookup_some_in in El. apply (in_map fst) in El. apply E2 in El. apply (N3 n); assumption.
        - apply Hres. apply in_app_iff. auto. }
      { intros n. rewrite Hp1. apply Hpn. }
      replace (i1 ++ i2 ++ i2') with ((i1 ++ i2) ++ i2') by (rewrite <- app_assoc; reflexivity).
      split; [eapply vdone_app; eassumption|].
      intros m st v Hm Hv Hlt HW. rewrite se_variants_cons.
      assert (Hm' : Forall (fun kv => (snd kv < ec_rc c2)%nat) (escans (i1 ++ i2) m)).
      { rewrite Sc1. apply Forall_app. split; [assumption|]. eapply Forall_impl; [|exact Hm]. cbn. intros. lia. }
      destruct D as (L & _).
      destruct (fa_cond (fst f)) as [e|] eqn:Ec.
      + destruct X4 as (Ex & Erc). rewrite Ex in Hm' |- *. rewrite bind_assoc.
        change (([NEval (ec_rc c) e; NCond (ec_rc c) iv] ++ i2')) with ([NEval (ec_rc c) e] ++ [NCond (ec_rc c) iv] ++ i2').
        assert (HI : einv (ec_rc c) m (es_regs st) [] (fun _ => False)) by (split; [assumption|intros ? []]).
        assert (Hfe : forall n, In n (fv e) -> False).
        { unfold vwf, attr_ok in Hf. rewrite !andb_true_iff in Hf. destruct Hf as (((_ & (Hsub & _)) & _) & _). apply subset_incl in Hsub.
          intros n Hn. apply (Hsub n). apply in_app_iff. left. rewrite Ec. exact Hn. }
        assert (Ee := eeval_run e m (ec_rc c) st [] (ec_rc c) (fun _ => False) HI Hfe).
        apply vsim_bind_err.
        { destruct (ev [] e); try exact I; rewrite eseq_app, Ee; reflexivity. }
        intros cv Ecv. rewrite Ecv in Ee. cbn [bind] in Ee.
        apply (vsim_after [NEval (ec_rc c) e] [(ec_rc c, cv)]); [exact Ee|]. cbn [escans escan app].
        set (st1 := {| es_regs := (ec_rc c, cv) :: es_regs st; es_snk := es_snk st |}).
        assert (Er : erun m (NCond (ec_rc c) iv) st1 = let! b := bool_of cv in
          if b then let! o := eseq m iv st1 in match o with ENext st' => Ok (ENext (eleave st1 st')) | EBrk st' => Ok (EBrk st') end else Ok (ENext st1)).
        { rewrite erun_cond. unfold ereg. cbn [st1 es_regs assoc]. rewrite Nat.eqb_refl. reflexivity. }
        apply vsim_bind_err.
        { destruct (bool_of cv); try exact I; rewrite eseq_cons, Er; reflexivity. }
        intros b Eb. rewrite Eb in Er. cbn [bind] in Er.
        assert (Hlt0 : regs_lt (ec_rc c0) (es_regs st1)) by (constructor; [cbn; lia|eapply regs_lt_mono; [exact Hlt|lia]]).
        assert (Hv1 : assoc src (es_regs st1) = Some v).
        { cbn. destruct (Nat.eqb_spec src (ec_rc c)); [lia|assumption]. }
        destruct b.
        * assert (Hm0 : Forall (fun kv => (snd kv < ec_rc c0)%nat) m) by (eapply Forall_impl; [|exact Hm]; cbn; intros; lia).
          specialize (R m st1 v Hm0 Hv1 Hlt0 HW).
          unfold bsim, vsim in *. rewrite !eseq_cons, !Er. destruct (svariant name f v) as [[bs a]| | |]; try (rewrite R; reflexivity).
          destruct R as (new & g & base' & W & E). exists new, g, base'. split; [exact W|]. right. rewrite E. reflexivity.
        * change (NCond (ec_rc c) iv :: i2') with ([NCond (ec_rc c) iv] ++ i2').
          apply (vsim_after [NCond (ec_rc c) iv] []); [rewrite eseq_one, Er; reflexivity|]. cbn [app].
          change (escans [NCond (ec_rc c) iv] m) with (escans [NEval (ec_rc c) e; NCond (ec_rc c) iv] m).
          apply R2; [exact Hm'|exact Hv1| |exact HW]. eapply regs_lt_mono; [exact Hlt0|lia].
      + destruct X4 as (-> & ->). cbn [bind]. apply bsim_vsim. apply R; assumption.
  Qed.

  Lemma erun_block m body st : erun m (NBreakBlock body) st =
    let! o := eseq m body st in match o with ENext st' | EBrk st' => Ok (ENext (eleave st st')) end.
  Proof. reflexivity. Qed.
  Lemma tagged_ok name items : forallb vwf items = true -> NoDup (all_conts items) ->
    forall buf src c is u c', (do (body, _) <- block (enc_variants name (map gvitem items) buf src); tell (NBreakBlock body)) c = Some (is, u, c') ->
    old_key (ec_rc c) (key buf) -> (src < ec_rc c)%nat -> ec_resolved c = [] -> ec_pending c = [] ->
    ldone (all_conts items) (fun _ => True) c c' is /\
    forall m st v, Forall (fun kv => (snd kv < ec_rc c)%nat) m -> assoc src (es_regs st) = Some v -> regs_lt (ec_rc c) (es_regs st) -> writable (key buf) (es_snk st) ->
      esim is (key buf) (ec_rc c) (ec_rc c') m st (es_snk st) (se_variants w p rf inputs None srec name items v) any.
  Proof.
    intros Hwf ND buf src c is u c' H Ho Hsrc E1 E2. ein H bu c1 G i1 i2. destruct bu as [body bu].
    apply block_some in H as (b1 & u1 & H & Eq & ->). injection Eq as -> ->. etell G. cbn [app].
    destruct (variants_ok name items Hwf ND buf src c b1 u1 _ H Ho Hsrc) as ((L & R1 & Hp & leak & Sc & Fl) & R).
    { intros n _. rewrite E1. reflexivity. }
    { intros n. rewrite E2. reflexivity. }
    split.
    { split; [assumption|]. split; [assumption|]. split; [assumption|]. exists leak. split; [exact Sc|]. eapply Forall_impl; [|exact Fl]. cbn. auto. }
    intros m st v Hm Hv Hlt HW. specialize (R m st v Hm Hv Hlt HW). unfold vsim, esim in *. rewrite !eseq_one, !erun_block.
    destruct (se_variants w p rf inputs None srec name items v) as [[b a]| | |]; try (rewrite R; reflexivity).
    destruct R as (new & g & base' & W & E). exists [], [], base'. split; [constructor|]. split; [constructor|]. split; [exact W|]. split; [|exact I].
    destruct E as [E|E]; rewrite E; cbn [bind app]; rewrite (eleave_wr (key buf) b st base' new g W); reflexivity.
  Qed.

  (** *** Whole declarations *)
  Definition st0 (v : val) : est := {| es_regs := [(0%nat, v)]; es_snk := [(None, KBuf [])] |}.
  Lemma top_cont a len tg items is u c' : enc_wf {| d_attr := a; d_ty := TCont len tg items; d_params := [] |} = true ->
    enc_uncond (enc_complex p rf true a (TCont len tg items)) a (TCont len tg items) false TDirect 0 false false {| ec_rc := 1; ec_resolved := []; ec_pending := [] |} = Some (is, u, c') ->
    forall v, esim is None 1 (ec_rc c') [] (st0 v) (es_snk (st0 v))
      (se_xs [] (fa_xs a) (lenr (se_limit w inputs None [] len false
        (if tg then se_variants w p rf inputs None srec (fa_name a) items v
         else let! (b, vs) := se_struct w p rf inputs None srec items v in Ok (b, VStruct (fa_name a) vs))))) any.
  Proof.
    intros Hwf H v. unfold enc_wf in Hwf. cbn [d_attr d_ty] in Hwf. rewrite !andb_true_iff in Hwf. destruct Hwf as (((W1 & W2) & W3) & W4).
    assert (Hp : fa_pad a = false) by (destruct (fa_pad a); [discriminate|reflexivity]).
    unfold enc_uncond in H. ein H il c1 G i1 i1'. destruct il as [inner streams]. cbn [andb] in G. ein G src c2 G1 i2 i2'. ert G. ein G1 t1 c3 G2 i3 i3'. apply enc_ends_spec in G2 as (-> & ->).
    rewrite Hp in G1. cbn [app].
    set (c := {| ec_rc := 1; ec_resolved := []; ec_pending := [] |}) in *.
    destruct (enc_xs_ok _ _ _ _ _ _ _ H ltac:(intros ? E; discriminate E)) as (L1 & M1 & M2 & Sc1 & Ho1 & R1). cbn [c ec_resolved ec_pending ec_rc] in M1, M2, L1, R1.
    set (g := fun btgt => if tg then do (body, _) <- block (enc_variants (fa_name a) (map gvitem items) btgt 0%nat); tell (NBreakBlock body)
              else do _ <- (do _ <- enc_refs (flatten_items items) 0%nat; enc_calcs (flatten_items items)); enc_items (map gitem items) btgt 0%nat false []).
    assert (G1' : elimit len (fa_name a) g inner c1 = Some (i3, t1, c3)).
    { rewrite <- G1. unfold g. destruct tg; reflexivity. }
    assert (Hfl : incl (fvo len) []).
    { destruct tg; [rewrite !andb_true_iff in W4; destruct W4 as ((W4 & _) & _); apply subset_incl; exact W4|].
      apply andb_true_iff in W4 as (W4 & _). cbn [ewf] in W4. rewrite !andb_true_iff in W4. destruct W4 as ((((_ & W4) & _) & _) & _). apply subset_incl. exact W4. }
    (* the contents, on any state the code before them can reach *)
    set (rs := if tg then se_variants w p rf inputs None srec (fa_name a) items v
         else let! (b, vs) := se_struct w p rf inputs None srec items v in Ok (b, VStruct (fa_name a) vs)).
    assert (L3 : (ec_rc c1 <= ec_rc c3)%nat /\ forall m st, m = [] -> assoc 0%nat (es_regs st) = Some v -> regs_lt (ec_rc c1) (es_regs st) -> writable (key inner) (es_snk st) ->
       esim i3 (key inner) (ec_rc c1) (ec_rc c3) m st (es_snk st) (lenr (se_limit w inputs None [] len (mem (fa_name a) (ec_pending c1)) rs)) any).
    { destruct (elimit_ok len (fa_name a) g inner c1 i3 t1 c3 (fun _ => rs) (all_conts items) (fun _ => True) []
        (fun m rg => m = [] /\ assoc 0%nat rg = Some v)) as (D & R); [|exact G1'|exact Ho1|exact Hfl| |].
      - intros m rg x (-> & E). split; [reflexivity|]. cbn. exact E.
      - intros btgt c4 is4 u4 c5 G4 Ho4 E1 E2 L4. rewrite M1 in E1. rewrite M2 in E2. unfold g in G4. unfold rs.
        assert (Hs4 : (0 < ec_rc c4)%nat) by lia.
        destruct tg.
        + rewrite !andb_true_iff in W4. destruct W4 as ((_ & W4) & W5). apply nodup_NoDup in W4.
          destruct (tagged_ok (fa_name a) items W5 W4 btgt 0%nat c4 is4 u4 c5 G4 Ho4 Hs4 E1 E2) as (D & R). split; [exact D|].
          intros m st en A _ _ (-> & Hv) Hlt HW. apply R; [constructor|exact Hv|exact Hlt|exact HW].
        + apply andb_true_iff in W4 as (W4 & W5). apply nodup_NoDup in W5.
          assert (Hwf1 : ewf [] (TCont None false items) = true) by (cbn [ewf] in W4 |- *; rewrite !andb_true_iff in W4 |- *; tauto).
          destruct (struct_ok items Hwf1 W5 btgt 0%nat c4 is4 u4 c5 G4 Ho4 Hs4 E1 E2) as ((L & Y1 & Y2 & leak & Y3 & Y4) & R). split.
          { split; [assumption|]. split; [assumption|]. split; [assumption|]. exists leak. split; [assumption|]. eapply Forall_impl; [|exact Y4]. cbn. tauto. }
          intros m st en A _ _ (-> & Hv) Hlt HW. eapply (esim_map (fun vs => VStruct (fa_name a) vs)); [apply R; assumption|intros; exact I].
      - destruct D as (L & _). split; [assumption|]. intros m st -> Hv Hlt HW.
        specialize (R [] st [] (fun _ => False) ltac:(split; [constructor|intros ? []]) ltac:(intros ? []) (conj eq_refl Hv) Hlt HW).
        eapply esim_weaken; [exact R|lia|lia|intros; exact I]. }
    destruct L3 as (L3 & R3). rewrite M2 in R3. cbn [mem existsb] in R3.
    eapply R1 with (A := fun _ => False) (Q := any).
    - split; [constructor|intros ? []].
    - intros n Hn. apply (subset_incl _ _ W3) in Hn. exact Hn.
    - reflexivity.
    - lia.
    - intros new g0 K Gk HW. apply R3; [reflexivity| | |exact HW]; cbn [es_regs st0].
      + rewrite assoc_app, (assoc_none _ _ 0%nat _ K) by lia. reflexivity.
      + eapply (regs_lt_app 1); [exact K| |lia]. constructor; [cbn; lia|constructor].
    - intros; exact I.
  Qed.

  Definition fin (r : res ioerr eout) : res ioerr (list Z) :=
    let! o := r in
    match o with
    | ENext st => match sink_of None (es_snk st) with Some (KBuf b) => Ok b | _ => Panic end
    | EBrk _ => Panic
    end.
  Lemma fin_ok {B} code lo hi st (r : res ioerr (list Z * B)) : es_snk st = [(None, KBuf [])] ->
    esim code None lo hi [] st (es_snk st) r any -> fin (eseq [] code st) = let! (b, _) := r in Ok b.
  Proof.
    intros Es H. unfold esim in H. destruct r as [[b a]| | |]; cbn [bind]; try (rewrite H; reflexivity).
    destruct H as (new & g & base' & _ & G & W & E & _). rewrite Es in W. cbn in W. injection W as <-. rewrite E. unfold fin. cbn [bind es_snk].
    rewrite (sink_old lo hi None g _ ltac:(intros ? X; discriminate X) G). reflexivity.
  Qed.

  Lemma se_xs_drop {B C} en xs (k : res ioerr (list Z * B)) (k' : res ioerr (list Z * C)) :
    (let! (b, _) := k in Ok b) = (let! (b, _) := k' in Ok b) ->
    (let! (b, _) := se_xs en xs k in Ok b) = (let! (b, _) := se_xs en xs k' in Ok b).
  Proof.
    intros E.
    assert (Ek : (let! (b, _) := k in Ok (b, tt)) = (let! (b, _) := k' in Ok (b, tt))).
    { destruct k as [[b x]| | |], k' as [[b' x']| | |]; cbn [bind] in *; try discriminate; try congruence. }
    pose proof (se_xs_map (fun _ => tt) en xs k) as E1. pose proof (se_xs_map (fun _ => tt) en xs k') as E2. cbn beta in E1, E2.
    rewrite Ek, E2 in E1. clear E2 Ek E.
    destruct (se_xs en xs k) as [[b x]| | |], (se_xs en xs k') as [[b' x']| | |]; cbn [bind] in *; try discriminate; try congruence.
  Qed.

  Lemma top_leaf a t is u c' x rg : is_cont t = false -> fa_pad a = false -> subset (xs_fv (fa_xs a)) [] = true -> ewf [] t = true ->
    enc_uncond (enc_complex p rf true a t) a t false TDirect 0 false false {| ec_rc := 1; ec_resolved := []; ec_pending := [] |} = Some (is, u, c') ->
    assoc 0%nat rg = Some x -> regs_lt 1 rg ->
    fin (eseq [] is {| es_regs := rg; es_snk := [(None, KBuf [])] |}) = let! (b, _) := se_xs [] (fa_xs a) (se_type [] t x) in Ok b.
  Proof.
    intros Hc Hp Hxs Hwf H Hx Hlt.
    assert (H' : enc_uncond (enc_complex p rf false a t) a t false TDirect 0 false false {| ec_rc := 1; ec_resolved := []; ec_pending := [] |} = Some (is, u, c')).
    { rewrite <- H. destruct t; try discriminate Hc; reflexivity. }
    assert (Hk : fa_pad a = false -> kspec (a, t) (enc_complex p rf false a t) (se_complex a t) []) by (intros _; apply enc_complex_ok; assumption).
    assert (Hr : ready (a, t) {| ec_rc := 1; ec_resolved := []; ec_pending := [] |} false).
    { split; [intros n _; reflexivity|]. split; [reflexivity|]. split; [reflexivity|]. unfold cnames. cbn [snd]. rewrite Hc. constructor. }
    destruct (enc_uncond_ok a t _ [] false false Hk Hxs Hwf (or_intror eq_refl) TDirect 0%nat false _ is u c' false H' ltac:(intros ? X; discriminate X) ltac:(intros _; cbn; lia) Hr) as (_ & R).
    assert (Hlf : leaf_names (flatten_ty t) = []) by (destruct t; try discriminate Hc; reflexivity).
    rewrite Hlf in R.
    specialize (R [] {| es_regs := rg; es_snk := [(None, KBuf [])] |} [] (fun _ => False) x ltac:(split; [constructor|intros ? []]) ltac:(intros ? []) ltac:(intros _; exact Hx) Hlt ltac:(reflexivity)).
    cbn [andb bind] in R.
    assert (R' := esim_weaken _ _ _ _ _ _ _ _ _ _ _ any R (le_n _) (le_n _) ltac:(intros; exact I)).
    apply (fin_ok _ _ _ {| es_regs := rg; es_snk := [(None, KBuf [])] |} _ eq_refl) in R'. rewrite R'.
    apply se_xs_drop.
    assert (E3 : se_complex a t [] x false false = let! (b, v') := se_type [] t x in Ok (b, [(fa_name a, v')])).
    { destruct t; try discriminate Hc; cbn [Spec.se_complex]; rewrite Hp; reflexivity. }
    rewrite E3. unfold with_len. destruct (se_type [] t x) as [[b x']| | |]; reflexivity.
  Qed.

  Lemma top_ok d code v : enc_wf d = true -> enc_code p rf d = Some code ->
    erun_top w inputs rec code v = let! (b, _) := se_top w p rf inputs None srec d v in Ok b.
  Proof.
    intros Hwf H. destruct d as [a t ps]. unfold enc_code in H. destruct (enc_top p rf _ _) as [[[is u] c']|] eqn:E; [|discriminate]. injection H as <-.
    assert (Hwf' := Hwf). unfold enc_wf in Hwf'. cbn [d_attr d_ty] in Hwf'. rewrite !andb_true_iff in Hwf'. destruct Hwf' as (((W1 & W2) & W3) & W4).
    assert (Hp : fa_pad a = false) by (destruct (fa_pad a); [discriminate|reflexivity]).
    assert (Hcd : fa_cond a = None) by (destruct (fa_cond a); [discriminate|reflexivity]).
    unfold enc_top in E. cbn [d_attr d_ty] in E. ein E top c1 G i1 i2. apply efresh_spec in E as (-> & -> & F1 & F2 & F3). cbn [ec_rc ec_resolved ec_pending] in *.
    assert (Ec1 : c1 = {| ec_rc := 1; ec_resolved := []; ec_pending := [] |}) by (destruct c1; cbn in *; congruence). subst c1. cbn [app].
    change (erun_top w inputs rec ?i v) with (fin (eseq [] i (st0 v))).
    unfold se_top. cbn [d_attr d_ty].
    assert (Hun : forall k src c is u c', enc_field k a t false TDirect src false c = Some (is, u, c') -> enc_uncond k a t false TDirect src false false c = Some (is, u, c')).
    { intros k src c is u0 c0 X. unfold enc_field, enc_cond in X. rewrite Hcd in X. ein X o c2 Y j1 j2. ert X. exact Y. }
    destruct (is_cont t) eqn:Hc.
    - destruct t as [| | | | | | | | |len tg items]; try discriminate Hc. ein G t1 c2 G1 i3 i4. ert G. cbn [app].
      apply Hun in G1. assert (R := top_cont a len tg items _ _ _ Hwf G1 v). apply fin_ok in R; [|reflexivity]. rewrite R. unfold lenr, se_limit, refuse.
      destruct tg; apply se_xs_drop.
      + destruct len as [e|]; [|destruct (se_variants w p rf inputs None srec (fa_name a) items v) as [[b x]| | |]; reflexivity].
        destruct (ev [] e) as [y| | |]; cbn [bind]; try reflexivity. destruct (len_of y) as [y'| | |]; cbn [bind]; try reflexivity.
        destruct (se_variants w p rf inputs None srec (fa_name a) items v) as [[b x]| | |]; reflexivity.
      + destruct len as [e|]; [|destruct (se_struct w p rf inputs None srec items v) as [[b x]| | |]; reflexivity].
        destruct (ev [] e) as [y| | |]; cbn [bind]; try reflexivity. destruct (len_of y) as [y'| | |]; cbn [bind]; try reflexivity.
        destruct (se_struct w p rf inputs None srec items v) as [[b x]| | |]; reflexivity.
    - assert (Hl : forall is u c' x rg, enc_uncond (enc_complex p rf true a t) a t false TDirect 0 false false {| ec_rc := 1; ec_resolved := []; ec_pending := [] |} = Some (is, u, c') ->
         assoc 0%nat rg = Some x -> regs_lt 1 rg ->
         fin (eseq [] is {| es_regs := rg; es_snk := [(None, KBuf [])] |}) = let! (b, _) := se_xs [] (fa_xs a) (se_type [] t x) in Ok b).
      { intros. eapply top_leaf; eauto. destruct t; try discriminate Hc; exact W4. }
      assert (Hg : forall is u c', (do _ <- tell (NGetField 0 0 [FTup]); enc_field (enc_complex p rf true a t) a t false TDirect 0%nat false)
            {| ec_rc := 1; ec_resolved := []; ec_pending := [] |} = Some (is, u, c') ->
          fin (eseq [] is (st0 v)) = let! (b, _) := (match v with VTup x => se_xs [] (fa_xs a) (let! (b, x') := se_type [] t x in Ok (b, VTup x')) | _ => Panic end) in Ok b).
      { intros is0 u0 c0 X. ein X t1 c2 Y i3 i4. etell X. apply Hun in Y. cbn [app]. rewrite eseq_cons. cbn [Encode.erun]. unfold ereg, st0. cbn [es_regs assoc Nat.eqb of_some bind].
        destruct v as [| | | | | | | | |x| | |]; try reflexivity. cbn [get_ops bind escan elet es_regs es_snk].
        etransitivity; [exact (Hl _ _ _ x [(0%nat, x); (0%nat, VTup x)] Y eq_refl ltac:(repeat constructor; cbn; lia))|].
        apply se_xs_drop. destruct (se_type [] t x) as [[b x']| | |]; reflexivity. }
      assert (Hd : forall is u c', (do _ <- gret tt; enc_field (enc_complex p rf true a t) a t false TDirect 0%nat false)
            {| ec_rc := 1; ec_resolved := []; ec_pending := [] |} = Some (is, u, c') ->
          fin (eseq [] is (st0 v)) = let! (b, _) := se_xs [] (fa_xs a) (se_type [] t v) in Ok b).
      { intros is0 u0 c0 X. ein X t1 c2 Y i3 i4. ert X. apply Hun in Y. cbn [app]. unfold st0.
        apply (Hl _ _ _ v [(0%nat, v)] Y eq_refl). repeat constructor. }
      clear Hl Hun. destruct t; try discriminate Hc; try (exact (Hg _ _ _ G)); try (exact (Hd _ _ _ G)).
      ert G. reflexivity.
  Qed.
End Enc.

(** The generated encoder writes exactly what the reference semantics says, for every
    program whose declarations are well formed and compile, every argument list and
    every value (well typed or not). *)
Theorem encode_refines w p rf :
  (forall n d, p n = Some d -> enc_wf d = true /\ enc_code p rf d <> None) ->
  forall fuel n args v,
    encode w p rf fuel n args v = let! (b, _) := sencode w p rf None fuel n args v in Ok b.
Proof.
  intros Hp. induction fuel as [|fuel IH]; intros n args v; [reflexivity|]. cbn [encode sencode].
  destruct (p n) as [d|] eqn:E; [|reflexivity]. cbn [of_some bind]. destruct (Hp _ _ E) as (Hwf & Hc).
  destruct (enc_code p rf d) as [code|] eqn:Ec; [|congruence].
  destruct (bind_params w (d_params d) args []) as [inp| | |]; try reflexivity. cbn [bind].
  eapply top_ok; eauto.
Qed.
