(** A device that fails gets a prefix of the encoding (C57). *)
From Verif Require Import Base Scalar EnumBits Expr Asg Gen Decode Encode Device.
From Coq Require Import Lia.
Open Scope string_scope. Open Scope Z_scope. Open Scope list_scope.

(** A device of capacity [cap] after the encoder has written [c] in all. *)
Definition clip (cap : option nat) (c : list Z) : list Z := match cap with None => c | Some k => firstn k c end.
Definition dev_at (cap : option nat) (c : list Z) : dev := {| got := clip cap c; room := match cap with None => None | Some k => Some (k - List.length c)%nat end |}.
Definition fits (cap : option nat) (c : list Z) : Prop := match cap with None => True | Some k => (List.length c <= k)%nat end.
Definition over (cap : option nat) (c : list Z) : Prop := match cap with None => False | Some k => (k < List.length c)%nat end.
Lemma over_app cap c o : over cap c -> over cap (c ++ o).
Proof. destruct cap; cbn; [|auto]. rewrite app_length. lia. Qed.
Lemma over_dev cap c o : over cap c -> dev_at cap (c ++ o) = dev_at cap c.
Proof.
  destruct cap as [k|]; cbn; [|contradiction]. intros H. unfold dev_at, clip. rewrite app_length. f_equal; [|f_equal; lia]. rewrite firstn_app. replace (k - List.length c)%nat with 0%nat by lia. cbn. apply app_nil_r.
Qed.

Section Post.
  Variable cap : option nat.
  (** No transform keeps anything for its drop. *)
  Variable exact : Prop.
  (** [f], run when [c] has been written, does what [r] says, or stops because the device is full; [R] relates their results. *)
  Definition post {A B} (R : A -> B -> list Z -> Prop) (c : list Z) (r : res ioerr A) (f : fout B * dev) : Prop :=
    match r with
    | Ok a => exists o b, R a b (c ++ o) /\
        ((f = (Fin (Ok b), dev_at cap (c ++ o)) /\ (exact -> fits cap c -> fits cap (c ++ o))) \/ (f = (Full, dev_at cap (c ++ o)) /\ over cap (c ++ o)))
    | Err e => fst f = Fin (Err e) \/ (fst f = Full /\ cap <> None)
    | Panic => fst f = Fin Panic \/ (fst f = Full /\ cap <> None)
    | Hang => fst f = Fin Hang \/ (fst f = Full /\ cap <> None)
    end.
  Definition same {A} (a b : A) (c : list Z) : Prop := a = b.
  Lemma post_bind {A B A' B'} (R : A -> B -> list Z -> Prop) (R' : A' -> B' -> list Z -> Prop) c r m (k : A -> res ioerr A') (k' : B -> D B') :
    post R c r (m (dev_at cap c)) -> (forall a b c1, R a b c1 -> post R' c1 (k a) (k' b (dev_at cap c1))) -> post R' c (bind r k) (dbind m k' (dev_at cap c)).
  Proof.
    intros H K. unfold dbind. destruct r as [a|e| |]; cbn [post bind] in *.
    - destruct H as (o & b & HR & [[E F]|[E O]]); rewrite E.
      + specialize (K a b (c ++ o) HR). destruct (k a) as [a'|e| |]; cbn [post] in *; try exact K. destruct K as (o' & b' & HR' & K). exists (o ++ o'), b'. rewrite app_assoc. split; [exact HR'|]. destruct K as [[E' F']|K]; [left; split; [exact E'|auto]|right; exact K].
      + specialize (K a b (c ++ o) HR). destruct (k a) as [a'|e| |]; cbn [post] in *; try (right; split; [reflexivity|intros ->; exact O]). destruct K as (o' & b' & HR' & _). exists (o ++ o'), b'. rewrite app_assoc. split; [exact HR'|]. right. rewrite (over_dev _ _ _ O). split; [reflexivity|apply over_app, O].
    - destruct (m (dev_at cap c)) as [[[]|] d]; cbn in *; destruct H as [H|[H H']]; inversion H; subst; auto.
    - destruct (m (dev_at cap c)) as [[[]|] d]; cbn in *; destruct H as [H|[H H']]; inversion H; subst; auto.
    - destruct (m (dev_at cap c)) as [[[]|] d]; cbn in *; destruct H as [H|[H H']]; inversion H; subst; auto.
  Qed.
  Lemma post_ret {A B} (R : A -> B -> list Z -> Prop) c a b : R a b c -> post R c (Ok a) (lift (Ok b) (dev_at cap c)).
  Proof. intros H. exists [], b. rewrite app_nil_r. split; [exact H|]. left. split; [reflexivity|auto]. Qed.
  Lemma post_lift {A} c (r : res ioerr A) : post same c r (lift r (dev_at cap c)).
  Proof. destruct r; cbn; auto. exists [], a. rewrite app_nil_r. split; [reflexivity|]. left. auto. Qed.
  (** A pure step. *)
  Lemma post_pure {A A' B'} (R' : A' -> B' -> list Z -> Prop) c (r : res ioerr A) (k : A -> res ioerr A') (k' : A -> D B') :
    (forall a, post R' c (k a) (k' a (dev_at cap c))) -> post R' c (bind r k) (dbind (lift r) k' (dev_at cap c)).
  Proof. intros K. unfold dbind, lift. destruct r as [a|e| |]; cbn; auto. Qed.
  Lemma post_write c b : post (fun (_ : unit) (_ : unit) c' => c' = c ++ b) c (Ok tt) (dwrite b (dev_at cap c)).
  Proof.
    exists b, tt. split; [reflexivity|]. unfold dwrite, dev_at. cbn [room got]. destruct cap as [k|]; cbn [clip]; [|left; split; [reflexivity|intros _ _; exact I]]. destruct (Nat.leb_spec (List.length b) (k - List.length c)) as [H|H].
    - left. split; [|cbn; intros _ F; rewrite app_length; lia]. f_equal. f_equal; [|f_equal; rewrite app_length; lia].
      rewrite firstn_app. f_equal. symmetry. apply firstn_all2. lia.
    - right. split; [|cbn; rewrite app_length; lia]. f_equal. f_equal; [|f_equal; rewrite app_length; lia]. rewrite firstn_app. reflexivity.
  Qed.
  Lemma quiet_at c b : dwrite_quiet b (dev_at cap c) = (Fin (Ok tt), dev_at cap (c ++ b)).
  Proof.
    unfold dwrite_quiet. destruct (post_write c b) as (o & u & Eq & [[E _]|[E _]]); rewrite E; cbn [snd]; rewrite Eq; reflexivity.
  Qed.
End Post.

(** The two states: the same but for the caller's writer, which has received [c]. *)
Definition root (c : list Z) : option nat * sink := (None, KBuf c).
Definition named_sinks (l : sinks) : Prop := Forall (fun x => fst x <> None) l.
(** The device had received [base] before. *)
Section States.
Variable base : list Z.
Definition sim (l l' : sinks) (C : list Z) : Prop := exists pre c, C = base ++ c /\ l = pre ++ [root c] /\ l' = pre ++ [root []] /\ named_sinks pre.
Definition sims (st st' : est) (c : list Z) : Prop := es_regs st = es_regs st' /\ sim (es_snk st) (es_snk st') c.
Definition simo (o o' : eout) (c : list Z) : Prop :=
  match o, o' with ENext st, ENext st' => sims st st' c | EBrk st, EBrk st' => sims st st' c | _, _ => False end.
Lemma key_eqb_none k : key_eqb k None = match k with None => true | _ => false end. Proof. destruct k; reflexivity. Qed.
Lemma key_eqb_named k (k' : option nat) : k' <> None -> key_eqb k k' = true -> k <> None.
Proof. destruct k, k'; cbn; congruence. Qed.

Lemma wr_sim : forall pre k b c, named_sinks pre ->
  match wr k b (pre ++ [root c]) with
  | Some l => exists pre' o, wrd k b (pre ++ [root []]) = Some (pre' ++ [root []], o) /\ l = pre' ++ [root (c ++ o)] /\ named_sinks pre'
  | None => wrd k b (pre ++ [root []]) = None
  end.
Proof.
  induction pre as [|[k' s] pre IH]; intros k b c N.
  - cbn [app wr wrd root]. rewrite key_eqb_none. destruct k; cbn; [reflexivity|]. exists [], b. auto.
  - inversion N as [|? ? N1 N2]; subst. cbn [fst] in N1. cbn [app wr wrd]. destruct (key_eqb k k').
    + destruct s as [a|p x args a|p|].
      * destruct k' as [k'|]; [|congruence]. exists ((Some k', KBuf (a ++ b)) :: pre), []. rewrite app_nil_r. split; [reflexivity|]. split; [reflexivity|]. constructor; [discriminate|exact N2].
      * exists ((k', KXf p x args (a ++ b)) :: pre), []. rewrite app_nil_r. split; [reflexivity|]. split; [reflexivity|]. constructor; assumption.
      * specialize (IH p b c N2). destruct (wr p b (pre ++ [root c])) as [l|]; [|rewrite IH; reflexivity]. destruct IH as (pre' & o & E & -> & N'). exists ((k', KAlias p) :: pre'), o. rewrite E. split; [reflexivity|]. split; [reflexivity|]. constructor; assumption.
      * reflexivity.
    + specialize (IH k b c N2). destruct (wr k b (pre ++ [root c])) as [l|]; [|rewrite IH; reflexivity]. destruct IH as (pre' & o & E & -> & N'). exists ((k', s) :: pre'), o. rewrite E. split; [reflexivity|]. split; [reflexivity|]. constructor; assumption.
Qed.
(** Something written to the caller's writer itself changes nothing else. *)
Lemma wr_direct : forall pre k b c, named_sinks pre -> direct k (pre ++ [root []]) = true -> wr k b (pre ++ [root c]) = Some (pre ++ [root (c ++ b)]).
Proof.
  induction pre as [|[k' s] pre IH]; intros k b c N; cbn [app wr direct root].
  - rewrite key_eqb_none. destruct k; cbn; [discriminate|reflexivity].
  - inversion N as [|? ? N1 N2]; subst. cbn [fst] in N1. destruct (key_eqb k k'); [|intros H; rewrite (IH k b c N2 H); reflexivity]. destruct s as [a|p x args a|p|]; try discriminate; [destruct k'; [discriminate|congruence]|]. intros H. rewrite (IH p b c N2 H). reflexivity.
Qed.
Lemma sink_of_sim : forall pre k c, named_sinks pre -> k <> None -> sink_of k (pre ++ [root c]) = sink_of k (pre ++ [root []]).
Proof. induction pre as [|[k' s] pre IH]; intros k c N K; cbn [app sink_of root]; [rewrite key_eqb_none; destruct k; [reflexivity|congruence]|]. inversion N; subst. destruct (key_eqb k k'); [reflexivity|apply IH; assumption]. Qed.
Lemma sink_of_root : forall pre c, named_sinks pre -> sink_of None (pre ++ [root c]) = Some (KBuf c).
Proof. induction pre as [|[k' s] pre IH]; intros c N; cbn [app sink_of root]; [reflexivity|]. inversion N; subst. cbn [fst] in *. destruct k'; [cbn; apply IH; assumption|congruence]. Qed.
Lemma truncate_root n pre c : (0 < n)%nat -> truncate n (pre ++ [root c]) = truncate (n - 1) pre ++ [root c].
Proof.
  intros H. unfold truncate. rewrite app_length. cbn [List.length]. rewrite skipn_app. replace (List.length pre + 1 - n)%nat with (List.length pre - (n - 1))%nat by lia. replace (List.length pre - (n - 1) - List.length pre)%nat with 0%nat by lia. reflexivity.
Qed.
Lemma leave_sim st0 st0' c0 st st' c : sims st0 st0' c0 -> sims st st' c -> sims (eleave st0 st) (eleave st0' st') c.
Proof.
  intros [R0 (p0 & x0 & _ & A0 & B0 & _)] [R (pre & x & C & A & B & N)]. split; cbn [eleave es_regs es_snk]; [rewrite R, R0; reflexivity|]. rewrite A0, B0, A, B, !app_length. cbn [List.length]. exists (truncate (List.length p0) pre), x.
  rewrite !truncate_root by lia. replace (List.length p0 + 1 - 1)%nat with (List.length p0) by lia. split; [exact C|]. split; [reflexivity|]. split; [reflexivity|]. unfold truncate. clear - N. revert pre N. generalize (List.length p0). intros n pre N. generalize (List.length pre - n)%nat. intros k. revert pre N. induction k as [|k IH]; intros [|y pre] N; cbn; auto. inversion N; auto.
Qed.
Lemma elet_sim r v st st' c : sims st st' c -> sims (elet r v st) (elet r v st') c.
Proof. intros [R S1]. split; cbn; [rewrite R; reflexivity|exact S1]. Qed.
Lemma epush_sim k s st st' c : sims st st' c -> sims (epush (Some k) s st) (epush (Some k) s st') c.
Proof. intros [R (pre & x & C & A & B & N)]. split; cbn; [exact R|]. exists ((Some k, s) :: pre), x. rewrite A, B. split; [exact C|]. split; [reflexivity|]. split; [reflexivity|]. constructor; [discriminate|exact N]. Qed.
End States.

Section Sim.
  Variable base : list Z.
  Notation sim := (sim base). Notation sims := (sims base). Notation simo := (simo base).
  Variables (w : world) (late : string -> list val -> list Z -> nat).
  Definition no_late : Prop := forall x vs l, late x vs l = 0%nat.
  Variable inputs : string -> option val.
  Variable rec : string -> list val -> val -> res ioerr (list Z).
  Variable frec : string -> list val -> val -> D unit.
  Definition whole {A} (b : list Z) (_ : A) (base c' : list Z) : Prop := c' = base ++ b.
  Hypothesis Hrec : forall cap n vs v c, post cap no_late (fun b (_ : unit) c' => c' = c ++ b) c (rec n vs v) (frec n vs v (dev_at cap c)).
  Variable cap : option nat.
  Notation pst := (post cap no_late).

  Lemma put_post t b st st' c : sims st st' c -> pst sims c (ewrite t b st) (put t b st' (dev_at cap c)).
  Proof.
    intros [R (pre & x & -> & A & B & N)]. unfold ewrite, put. rewrite A, B. pose proof (wr_sim pre t b x N) as W. destruct (wr t b (pre ++ [root x])) as [l|].
    - destruct W as (pre' & o & E & -> & N'). rewrite E. cbn [of_some]. unfold lift at 1. unfold dbind at 1. cbn [snd fst bind].
      change (Ok {| es_regs := es_regs st; es_snk := pre' ++ [root (x ++ o)] |}) with (bind (Ok tt : res ioerr unit) (fun _ => Ok {| es_regs := es_regs st; es_snk := pre' ++ [root (x ++ o)] |} : res ioerr est)).
      eapply post_bind; [apply post_write|]. intros _ [] c1 ->. apply post_ret. split; [exact R|]. exists pre', (x ++ o). rewrite app_assoc. auto.
    - rewrite W. cbn. left. reflexivity.
  Qed.
  Lemma finish_post k : k <> None -> forall pre c, named_sinks pre -> pst sim (base ++ c) (finish w k (pre ++ [root c])) (ffinish w late k (pre ++ [root []]) (dev_at cap (base ++ c))).
  Proof.
    intros K. induction pre as [|[k' s] pre IH]; intros c N; cbn [app finish ffinish root].
    - rewrite key_eqb_none. destruct k; [|congruence]. cbn. left. reflexivity.
    - inversion N as [|? ? N1 N2]; subst. cbn [fst] in N1. destruct (key_eqb k k').
      + assert (G : pst sim (base ++ c) (Ok ((k', KGone) :: pre ++ [root c])) (lift (Ok ((k', KGone) :: pre ++ [root []])) (dev_at cap (base ++ c)))).
        { apply post_ret. exists ((k', KGone) :: pre), c. split; [reflexivity|]. split; [reflexivity|]. split; [reflexivity|]. constructor; assumption. }
        destruct s as [a|p x args a|p|]; try exact G. apply post_pure. intros b. remember (List.length b - late x args a)%nat as n eqn:En. rewrite <- (firstn_skipn n b) at 1.
        pose proof (wr_sim pre p (firstn n b) c N2) as W1.
        assert (W : wr p (firstn n b ++ skipn n b) (pre ++ [root c]) = match wr p (firstn n b) (pre ++ [root c]) with Some l => wr p (skipn n b) l | None => None end).
        { generalize (firstn n b) (skipn n b) (pre ++ [root c]). clear. intros b1 b2 l. revert p. induction l as [|[k' s] l IH]; intros p; cbn [wr]; [reflexivity|]. destruct (key_eqb p k') eqn:E.
          - destruct s as [a|q x args a|q|]; cbn [wr]; rewrite ?E; rewrite ?app_assoc; try reflexivity. rewrite IH. destruct (wr q b1 l); cbn [wr]; rewrite ?E; reflexivity.
          - rewrite IH. destruct (wr p b1 l); cbn [wr]; rewrite ?E; reflexivity. }
        rewrite W. destruct (wr p (firstn n b) (pre ++ [root c])) as [l1|]; [|rewrite W1; cbn; left; reflexivity]. destruct W1 as (pre1 & o1 & E1 & -> & N3). rewrite E1. cbn [of_some]. unfold lift at 1. unfold dbind at 1. cbn [fst snd].
        pose proof (wr_sim pre1 p (skipn n b) (c ++ o1) N3) as W2. destruct (wr p (skipn n b) (pre1 ++ [root (c ++ o1)])) as [l2|].
        * destruct W2 as (pre2 & o2 & E2 & -> & N4). rewrite E2. cbn [of_some bind].
          change (Ok ((k', KGone) :: pre2 ++ [root ((c ++ o1) ++ o2)])) with (bind (Ok tt : res ioerr unit) (fun _ => Ok ((k', KGone) :: pre2 ++ [root ((c ++ o1) ++ o2)]) : res ioerr sinks)).
          eapply post_bind; [apply post_write|]. intros _ [] c1 ->. unfold lift at 1. unfold dbind at 1. cbn [fst snd]. unfold dbind. rewrite (quiet_at cap no_late). unfold lift.
          exists o2. eexists. split; [exists ((k', KGone) :: pre2), ((c ++ o1) ++ o2); split; [rewrite !app_assoc; reflexivity|]; split; [reflexivity|]; split; [reflexivity|]; constructor; assumption|]. left. split; [reflexivity|].
          intros Ex F. assert (Z0 : skipn n b = []) by (rewrite En, (Ex x args a), Nat.sub_0_r; apply skipn_all). 
          assert (o2 = []) as ->; [|rewrite app_nil_r; exact F]. clear - E2 Z0. rewrite Z0 in E2. revert E2. generalize (pre1 ++ [root []]) (pre2 ++ [root []]). intros l l'. revert p l'. induction l as [|[k s] l IH]; intros p l'; cbn [wrd]; [discriminate|].
          destruct (key_eqb p k); [destruct s as [a|q y ar a|q|]; [destruct k; intros H; injection H as _ <-; reflexivity|intros H; injection H as _ <-; reflexivity| |discriminate]|].
          -- destruct (wrd q [] l) as [[l2 o]|] eqn:E; [|discriminate]. intros H. injection H as _ <-. eapply IH, E.
          -- destruct (wrd p [] l) as [[l2 o]|] eqn:E; [|discriminate]. intros H. injection H as _ <-. eapply IH, E.
        * rewrite W2. cbn [of_some bind]. unfold dbind at 1. destruct (post_write cap no_late (base ++ c) o1) as (o & u & _ & [[E _]|[E O]]); rewrite E; [left; reflexivity|right; split; [reflexivity|intros Ec; rewrite Ec in O; exact O]].
      + eapply post_bind; [apply (IH c N2)|]. intros l l' c1 (pre' & x & -> & -> & -> & N'). apply post_ret. exists ((k', s) :: pre'), x. split; [reflexivity|]. split; [reflexivity|]. split; [reflexivity|]. constructor; assumption.
  Qed.

  Lemma ereg_sim r st st' c : sims st st' c -> ereg r st = ereg r st'.
  Proof. intros [R _]. unfold ereg. rewrite R. reflexivity. Qed.
  Lemma regs_sim args st st' c : sims st st' c -> mapM (fun a => ereg a st) args = mapM (fun a => ereg a st') args.
  Proof. intros H. induction args as [|a l IH]; cbn [mapM]; [reflexivity|]. rewrite (ereg_sim a _ _ _ H), IH. reflexivity. Qed.
  Lemma check_sim len n st st' c : sims st st' c -> check_len len n st = check_len len n st'.
  Proof. intros H. unfold check_len. destruct len as [r|]; [rewrite (ereg_sim r _ _ _ H)|]; reflexivity. Qed.
  Lemma ops_sim st st' c : sims st st' c -> forall ops v, get_ops st ops v = get_ops st' ops v.
  Proof.
    intros H. induction ops as [|o ops IH]; intros v; cbn [get_ops]; [reflexivity|]. destruct o as [n|r|].
    - destruct v; try reflexivity. destruct (of_some _); cbn; auto.
    - rewrite (ereg_sim r _ _ _ H). destruct (ereg r st') as [a| | |]; cbn; try reflexivity. destruct a, v; try reflexivity. destruct (of_some _); cbn; auto.
    - destruct v; try reflexivity. apply IH.
  Qed.
  Lemma next_post st st' c : sims st st' c -> pst simo c (Ok (ENext st)) (lift (Ok (ENext st')) (dev_at cap c)).
  Proof. intros H. apply post_ret. exact H. Qed.
  Lemma brk_post st st' c : sims st st' c -> pst simo c (Ok (EBrk st)) (lift (Ok (EBrk st')) (dev_at cap c)).
  Proof. intros H. apply post_ret. exact H. Qed.
  Lemma put_next t b st st' c : sims st st' c -> pst simo c (let! st := ewrite t b st in Ok (ENext st)) ((let@ st := put t b st' in lift (Ok (ENext st))) (dev_at cap c)).
  Proof. intros H. eapply post_bind; [apply put_post, H|]. intros x y c1 H1. apply next_post, H1. Qed.
  Lemma stop_post {A B} (R : A -> B -> list Z -> Prop) c : pst R c Panic (lift Panic (dev_at cap c)).
  Proof. left. reflexivity. Qed.
  Lemma for_post body body' : (forall i st st' c, sims st st' c -> pst simo c (body i st) (body' i st' (dev_at cap c))) ->
    forall n i st st' c, sims st st' c -> pst simo c (for_range n i body st) (ffor n i body' st' (dev_at cap c)).
  Proof.
    intros H. induction n as [|n IH]; intros i st st' c S1; cbn [for_range ffor]; [apply next_post, S1|]. eapply post_bind; [apply H, S1|]. intros [x|x] [y|y] c1 K; try contradiction K; [apply IH, K|apply brk_post, K].
  Qed.
  Fixpoint run_post (i : einstr) {struct i} : forall m st st' c, sims st st' c -> pst simo c (erun w inputs rec m i st) (frun w late inputs frec m i st' (dev_at cap c)).
  Proof.
    assert (HS : forall l, (forall i, In i l -> forall m st st' c, sims st st' c -> pst simo c (erun w inputs rec m i st) (frun w late inputs frec m i st' (dev_at cap c))) ->
      forall m st st' c, sims st st' c -> pst simo c (eseq w inputs rec m l st) (fseq w late inputs frec m l st' (dev_at cap c))).
    { induction l as [|j l IH]; intros Hl m st st' c S1; cbn [eseq fseq]; [apply next_post, S1|]. eapply post_bind; [apply Hl; [left; reflexivity|exact S1]|]. intros [x|x] [y|y] c1 K; try contradiction K; [apply IH; [intros; apply Hl; [right; assumption|assumption]|exact K]|apply brk_post, K]. }
    destruct i as [r e|r src ops|r n|n r|buf len|buf|s r x args|cd pre s r owned x args|r|t buf|t src n args|t src n args|t src d|t src q|t src q len|t src d len|t len|idx stop body|r src|r|src r|cd body|n d src r|n d src rs|body|]; intros m st st' c S1.
    - cbn [frun erun]. destruct S1 as [R1 S1]. replace (fun n : string => match lookup n m with Some r0 => assoc r0 (es_regs st) | None => None end) with (fun n : string => match lookup n m with Some r0 => assoc r0 (es_regs st') | None => None end) by (rewrite R1; reflexivity).
      destruct (eval _ _ _ e); cbn; auto. exists [], (ENext (elet r a st')). rewrite app_nil_r. split; [apply elet_sim; split; assumption|]. left. split; [reflexivity|auto].
    - cbn [frun erun]. rewrite (ereg_sim src _ _ _ S1). destruct (ereg src st') as [v| | |]; cbn [bind]; try (left; reflexivity). rewrite (ops_sim _ _ _ S1). destruct (get_ops st' ops v); cbn [bind]; try (left; reflexivity). apply next_post, elet_sim, S1.
    - cbn [frun erun]. destruct (of_some (lookup n m)) as [q| | |]; cbn [bind]; try (left; reflexivity). rewrite (ereg_sim q _ _ _ S1). destruct (ereg q st'); cbn [bind]; try (left; reflexivity). apply next_post, elet_sim, S1.
    - cbn [frun erun]. apply next_post, S1.
    - cbn [frun erun]. rewrite (ereg_sim len _ _ _ S1). destruct (ereg len st') as [v| | |]; cbn [bind]; try (left; reflexivity). destruct (len_of v); cbn [bind]; try (left; reflexivity). apply next_post, epush_sim, S1.
    - cbn [frun erun]. apply next_post, epush_sim, S1.
    - cbn [frun erun]. rewrite (regs_sim args _ _ _ S1). destruct (mapM _ args); cbn [bind]; try (left; reflexivity). apply next_post, epush_sim, S1.
    - (* conditional transform *)
      assert (Hl : forall j, In j pre -> forall m st st' c, sims st st' c -> pst simo c (erun w inputs rec m j st) (frun w late inputs frec m j st' (dev_at cap c))).
      { clear -run_post. induction pre as [|j0 pre IH]; [intros j []|]. intros j [<-|Hj]; [apply run_post|apply IH, Hj]. }
      specialize (HS pre Hl). cbn [frun erun]. rewrite (ereg_sim cd _ _ _ S1). apply post_pure. intros cv. apply post_pure. intros b. destruct b; [|apply next_post, epush_sim, epush_sim, S1].
      eapply post_bind; [apply (HS m st st' c S1)|]. intros [y|y] [z|z] c1 K; try contradiction K; [|apply brk_post, K]. rewrite (regs_sim args _ _ _ K). apply post_pure. intros vs. apply next_post, epush_sim, epush_sim. eapply leave_sim; [exact S1|exact K].
    - cbn [frun erun]. destruct S1 as [R1 (pre & x & -> & A & B & N)]. rewrite A, B. eapply post_bind; [apply finish_post; [discriminate|exact N]|]. intros l l' c1 K. apply next_post. split; [exact R1|exact K].
    - cbn [frun erun]. pose proof S1 as [_ (pre & x & C & A & B & N)]. assert (E : sink_of (Some buf) (es_snk st) = sink_of (Some buf) (es_snk st')) by (rewrite A, B; apply sink_of_sim; [exact N|discriminate]). rewrite E. destruct (sink_of (Some buf) (es_snk st')) as [[bytes| | |]|]; try apply stop_post. apply put_next, S1.
    - cbn [frun erun]. rewrite (regs_sim args _ _ _ S1), (ereg_sim src _ _ _ S1). apply post_pure. intros vs. apply post_pure. intros v. apply post_pure. intros b. apply put_next, S1.
    - (* another declaration's encoder *)
      cbn [frun erun]. rewrite (regs_sim args _ _ _ S1), (ereg_sim src _ _ _ S1). apply post_pure. intros vs. apply post_pure. intros v. pose proof S1 as [R1 (pre & x & C & A & B & N)]. destruct (direct (key t) (es_snk st')) eqn:Di.
      + eapply post_bind; [apply Hrec|]. intros b u c1 ->. unfold ewrite. rewrite A. rewrite B in Di. rewrite (wr_direct pre _ b x N Di). cbn [of_some bind]. apply next_post. split; [exact R1|]. exists pre, (x ++ b). cbn [es_snk]. rewrite C, app_assoc. auto.
      + pose proof (Hrec None n vs v []) as H. change (dev_at None []) with {| got := []; room := None |} in H. destruct (rec n vs v) as [b|e| |]; cbn [post bind] in *.
        * destruct H as (o & u & E & [[H _]|[_ []]]). cbn [app] in E. subst o. rewrite H. cbn [app dev_at clip got]. apply put_next, S1.
        * destruct (frec n vs v _) as [[[]|] d]; cbn in H; (destruct H as [H|[_ H]]; [|congruence]); inversion H; subst; left; reflexivity.
        * destruct (frec n vs v _) as [[[]|] d]; cbn in H; (destruct H as [H|[_ H]]; [|congruence]); inversion H; subst; left; reflexivity.
        * destruct (frec n vs v _) as [[[]|] d]; cbn in H; (destruct H as [H|[_ H]]; [|congruence]); inversion H; subst; left; reflexivity.
    - cbn [frun erun]. rewrite (ereg_sim src _ _ _ S1). apply post_pure. intros v. apply post_pure. intros b. apply put_next, S1.
    - cbn [frun erun]. rewrite (ereg_sim src _ _ _ S1). apply post_pure. intros v. apply post_pure. intros b. apply put_next, S1.
    - cbn [frun erun]. destruct q; try apply stop_post; (rewrite (ereg_sim src _ _ _ S1); apply post_pure; intros v; destruct v; try apply stop_post; rewrite (check_sim len _ _ _ _ S1); apply post_pure; intros _; apply post_pure; intros bs; apply put_next, S1).
    - cbn [frun erun]. rewrite (ereg_sim src _ _ _ S1). apply post_pure. intros v. destruct v; try apply stop_post. rewrite (check_sim len _ _ _ _ S1). apply post_pure. intros _. apply post_pure. intros bs. apply put_next, S1.
    - cbn [frun erun]. rewrite (ereg_sim len _ _ _ S1). apply post_pure. intros v. apply post_pure. intros n. apply put_next, S1.
    - (* loop *)
      assert (Hl : forall j, In j body -> forall m st st' c, sims st st' c -> pst simo c (erun w inputs rec m j st) (frun w late inputs frec m j st' (dev_at cap c))).
      { clear -run_post. induction body as [|j0 body IH]; [intros j []|]. intros j [<-|Hj]; [apply run_post|apply IH, Hj]. }
      specialize (HS body Hl). cbn [frun erun]. rewrite (ereg_sim stop _ _ _ S1). apply post_pure. intros v. destruct v; try apply stop_post. apply for_post; [|exact S1]. intros i0 st1 st1' c1 K. eapply post_bind; [apply (HS m), elet_sim, K|]. intros [y1|y1] [y2|y2] c2 K2; try contradiction K2; [|apply brk_post, K2]. apply next_post. eapply leave_sim; [exact K|exact K2].
    - cbn [frun erun]. pose proof S1 as [R1 (pre & x & C & A & B & N)]. assert (E : sink_of (Some src) (es_snk st) = sink_of (Some src) (es_snk st')) by (rewrite A, B; apply sink_of_sim; [exact N|discriminate]). rewrite R1, E. destruct (assoc src (es_regs st')) as [[]|]; destruct (sink_of (Some src) (es_snk st')) as [[]|]; try apply stop_post; (apply next_post, elet_sim, S1).
    - cbn [frun erun]. destruct S1 as [R1 (pre & x & -> & A & B & N)]. rewrite A, B. eapply post_bind; [apply finish_post; [discriminate|exact N]|]. intros l l' c1 K. apply next_post. split; [exact R1|exact K].
    - cbn [frun erun]. rewrite (ereg_sim src _ _ _ S1). destruct (ereg src st') as [v| | |]; cbn [bind]; try (left; reflexivity). destruct v as [| | | | | | | | | | |o|]; try (left; reflexivity).
      all: try (destruct o; [apply next_post, elet_sim, S1|left; reflexivity]).
    - assert (Hl : forall j, In j body -> forall m st st' c, sims st st' c -> pst simo c (erun w inputs rec m j st) (frun w late inputs frec m j st' (dev_at cap c))).
      { clear -run_post. induction body as [|j0 body IH]; [intros j []|]. intros j [<-|Hj]; [apply run_post|apply IH, Hj]. }
      specialize (HS body Hl). cbn [frun erun]. rewrite (ereg_sim cd _ _ _ S1). apply post_pure. intros cv. apply post_pure. intros b. destruct b; [|apply next_post, S1]. eapply post_bind; [apply (HS m st st' c S1)|]. intros [y|y] [z|z] c1 K; try contradiction K; [|apply brk_post, K]. apply next_post. eapply leave_sim; [exact S1|exact K].
    - cbn [frun erun]. rewrite (ereg_sim src _ _ _ S1). destruct (ereg src st') as [v| | |]; cbn [bind]; try (left; reflexivity). destruct v; try (left; reflexivity); destruct (String.eqb n _); try (left; reflexivity); destruct (String.eqb d _); try (left; reflexivity). apply next_post, elet_sim, S1.
    - cbn [frun erun]. rewrite (ereg_sim src _ _ _ S1). destruct (ereg src st') as [v| | |]; cbn [bind]; try (left; reflexivity). destruct v; try (left; reflexivity); destruct (String.eqb n _); try (left; reflexivity); destruct (String.eqb d _); try (left; reflexivity).
      destruct (mapM _ rs); cbn [bind]; try (left; reflexivity). apply next_post. destruct S1 as [R1 S1]. split; cbn; [rewrite R1; reflexivity|exact S1].
    - assert (Hl : forall j, In j body -> forall m st st' c, sims st st' c -> pst simo c (erun w inputs rec m j st) (frun w late inputs frec m j st' (dev_at cap c))).
      { clear -run_post. induction body as [|j0 body IH]; [intros j []|]. intros j [<-|Hj]; [apply run_post|apply IH, Hj]. }
      specialize (HS body Hl). cbn [frun erun]. eapply post_bind; [apply (HS m st st' c S1)|]. intros [y|y] [z|z] c1 K; try contradiction K; apply next_post; (eapply leave_sim; [exact S1|exact K]).
    - cbn [frun erun]. apply brk_post, S1.
  Qed.
  Lemma seq_post l : forall m st st' c, sims st st' c -> pst simo c (eseq w inputs rec m l st) (fseq w late inputs frec m l st' (dev_at cap c)).
  Proof.
    induction l as [|j l IH]; intros m st st' c S1; cbn [eseq fseq]; [apply next_post, S1|]. eapply post_bind; [apply run_post, S1|]. intros [x|x] [y|y] c1 K; try contradiction K; [apply IH, K|apply brk_post, K].
  Qed.
End Sim.

(** All declarations. *)
Theorem encode_post w late p rf : forall fuel cap n args v base, post cap (no_late late) (fun b (_ : unit) c => c = base ++ b) base (encode w p rf fuel n args v) (fencode w late p rf fuel n args v (dev_at cap base)).
Proof.
  induction fuel as [|fuel IH]; intros cap n args v base; cbn [encode fencode]; [left; reflexivity|]. apply post_pure. intros d. apply post_pure. intros code. apply post_pure. intros inp. unfold erun_top, frun_top.
  eapply post_bind; [apply (seq_post base w late _ _ _ IH cap code)|].
  - split; [reflexivity|]. exists [], []. rewrite app_nil_r. repeat split. constructor.
  - intros [x|x] [y|y] c1 K; try contradiction K; [|left; reflexivity]. destruct K as [_ (pre & c & -> & A & B & N)]. rewrite A, B, !sink_of_root by exact N. exists [], tt. rewrite app_nil_r. split; [reflexivity|]. left. auto.
Qed.

(** ** Whatever the outcome *)
(** A run writes the same bytes to every device, until it is full. *)
Definition uni {A} (m : D A) : Prop := exists r o, forall cap c,
  m (dev_at cap c) = (Fin r, dev_at cap (c ++ o)) \/ (m (dev_at cap c) = (Full, dev_at cap (c ++ o)) /\ over cap (c ++ o)).
Lemma uni_lift {A} (r : res ioerr A) : uni (lift r).
Proof. exists r, []. intros cap c. rewrite app_nil_r. left. reflexivity. Qed.
Lemma uni_bind {A B} (m : D A) (k : A -> D B) : uni m -> (forall a, uni (k a)) -> uni (dbind m k).
Proof.
  intros (r & o & H) K. destruct r as [a|e| |].
  - destruct (K a) as (r' & o' & H'). exists r', (o ++ o'). intros cap c. rewrite app_assoc. unfold dbind. destruct (H cap c) as [E|[E O]]; rewrite E; [apply H'|]. right. rewrite (over_dev _ _ _ O). split; [reflexivity|apply over_app, O].
  - exists (Err e), o. intros cap c. unfold dbind. destruct (H cap c) as [E|[E O]]; rewrite E; auto.
  - exists Panic, o. intros cap c. unfold dbind. destruct (H cap c) as [E|[E O]]; rewrite E; auto.
  - exists Hang, o. intros cap c. unfold dbind. destruct (H cap c) as [E|[E O]]; rewrite E; auto.
Qed.
Lemma uni_write b : uni (dwrite b).
Proof.
  exists (Ok tt), b. intros cap c. destruct (post_write cap True c b) as (o & u & Eq & [[E _]|[E O]]); rewrite E, Eq in *; [left; destruct u; reflexivity|right; split; [reflexivity|exact O]].
Qed.
Lemma uni_quiet b : uni (dwrite_quiet b).
Proof. exists (Ok tt), b. intros cap c. left. apply (quiet_at cap True). Qed.
Lemma uni_put t b st : uni (put t b st).
Proof. unfold put. apply uni_bind; [apply uni_lift|]. intros r. apply uni_bind; [apply uni_write|]. intros _. apply uni_lift. Qed.
Section Uni.
  Variables (w : world) (late : string -> list val -> list Z -> nat) (inputs : string -> option val) (rec : string -> list val -> val -> D unit).
  Hypothesis Hrec : forall n vs v, uni (rec n vs v).
  Lemma uni_finish k : forall l, uni (ffinish w late k l).
  Proof.
    induction l as [|[k' s] l IH]; cbn [ffinish]; [apply uni_lift|]. destruct (key_eqb k k').
    - destruct s; try apply uni_lift. apply uni_bind; [apply uni_lift|]. intros b. apply uni_bind; [apply uni_lift|]. intros r1. apply uni_bind; [apply uni_write|]. intros _. apply uni_bind; [apply uni_lift|]. intros r2. apply uni_bind; [apply uni_quiet|]. intros _. apply uni_lift.
    - apply uni_bind; [exact IH|]. intros l'. apply uni_lift.
  Qed.
  Lemma uni_for body : (forall i st, uni (body i st)) -> forall n i st, uni (ffor n i body st).
  Proof. intros H. induction n as [|n IH]; intros i st; cbn [ffor]; [apply uni_lift|]. apply uni_bind; [apply H|]. intros [x|x]; [apply IH|apply uni_lift]. Qed.
  Ltac u := repeat first [apply uni_lift | apply uni_put | apply uni_bind; [first [apply uni_lift|apply uni_put]|intros ?]].
  Fixpoint uni_run (i : einstr) {struct i} : forall m st, uni (frun w late inputs rec m i st).
  Proof.
    assert (HS : forall l, (forall i, In i l -> forall m st, uni (frun w late inputs rec m i st)) -> forall m st, uni (fseq w late inputs rec m l st)).
    { induction l as [|j l IH]; intros Hl m st; cbn [fseq]; [apply uni_lift|]. apply uni_bind; [apply Hl; left; reflexivity|]. intros [x|x]; [apply IH; intros; apply Hl; right; assumption|apply uni_lift]. }
    assert (HB : forall l : list einstr, (fix go (l : list einstr) : Prop := match l with [] => True | j :: l => (forall m st, uni (frun w late inputs rec m j st)) /\ go l end) l -> forall i, In i l -> forall m st, uni (frun w late inputs rec m i st)).
    { induction l as [|j l IH]; intros Hl i0 []; destruct Hl; [subst; assumption|apply IH; assumption]. }
    destruct i as [r e|r src ops|r n|n r|buf len|buf|s r x args|cd pre s r owned x args|r|t buf|t src n args|t src n args|t src d|t src q|t src q len|t src d len|t len|idx stop body|r src|r|src r|cd body|n d src r|n d src rs|body|]; intros m st; cbn [frun]; try solve [u].
    - assert (Hl : forall m st, uni (fseq w late inputs rec m pre st)) by (apply HS, HB; clear - uni_run; induction pre as [|j0 pre IH]; [exact I|split; [apply uni_run|exact IH]]).
      apply uni_bind; [apply uni_lift|]. intros cv. apply uni_bind; [apply uni_lift|]. intros b. destruct b; [|apply uni_lift]. apply uni_bind; [apply Hl|]. intros [y|y]; u.
    - apply uni_bind; [apply uni_finish|]. intros l. apply uni_lift.
    - destruct (sink_of (Some buf) (es_snk st)) as [[]|]; u.
    - apply uni_bind; [apply uni_lift|]. intros vs. apply uni_bind; [apply uni_lift|]. intros v. destruct (direct (key t) (es_snk st)).
      + apply uni_bind; [apply Hrec|]. intros _. apply uni_lift.
      + destruct (rec n vs v {| got := []; room := None |}) as [[[]|] d]; u.
    - destruct q; u; destruct a; u.
    - u. destruct a; u.
    - assert (Hl : forall m st, uni (fseq w late inputs rec m body st)) by (apply HS, HB; clear - uni_run; induction body as [|j0 pre IH]; [exact I|split; [apply uni_run|exact IH]]).
      u. destruct a; u. apply uni_for. intros i0 st0. apply uni_bind; [apply Hl|]. intros [y|y]; u.
    - apply uni_bind; [apply uni_finish|]. intros l. apply uni_lift.
    - assert (Hl : forall m st, uni (fseq w late inputs rec m body st)) by (apply HS, HB; clear - uni_run; induction body as [|j0 pre IH]; [exact I|split; [apply uni_run|exact IH]]).
      apply uni_bind; [apply uni_lift|]. intros cv. apply uni_bind; [apply uni_lift|]. intros b. destruct b; [|apply uni_lift]. apply uni_bind; [apply Hl|]. intros [y|y]; u.
    - assert (Hl : forall m st, uni (fseq w late inputs rec m body st)) by (apply HS, HB; clear - uni_run; induction body as [|j0 pre IH]; [exact I|split; [apply uni_run|exact IH]]).
      apply uni_bind; [apply Hl|]. intros [y|y]; u.
  Qed.
  Lemma uni_seq l : forall m st, uni (fseq w late inputs rec m l st).
  Proof. induction l as [|j l IH]; intros m st; cbn [fseq]; [apply uni_lift|]. apply uni_bind; [apply uni_run|]. intros [x|x]; [apply IH|apply uni_lift]. Qed.
End Uni.
Theorem fencode_uni w late p rf : forall fuel n args v, uni (fencode w late p rf fuel n args v).
Proof.
  induction fuel as [|fuel IH]; intros n args v; cbn [fencode]; [apply uni_lift|]. repeat (apply uni_bind; [apply uni_lift|intros ?]). unfold frun_top. apply uni_bind; [apply uni_seq, IH|]. intros [x|x]; apply uni_lift.
Qed.
