(** A failing reader (C58): what the decoder makes of it agrees with every continuation of the input. *)
From Verif Require Import Base Scalar EnumBits Expr Asg Gen Decode Fault.
From Coq Require Import Lia.
Open Scope string_scope. Open Scope Z_scope. Open Scope list_scope.

Lemma f2_len {A B} (R : A -> B -> Prop) l l' : Forall2 R l l' -> List.length l = List.length l'.
Proof. induction 1; cbn; congruence. Qed.
Lemma mapM_len {A B} (f : A -> res ioerr B) : forall l r, mapM f l = Ok r -> List.length r = List.length l.
Proof. induction l as [|a l IH]; intros r; cbn [mapM]; [intros H; apply Ok_inj in H; subst; reflexivity|]. destruct (f a); cbn [bind]; try discriminate. destruct (mapM f l); cbn [bind]; try discriminate. intros H. apply Ok_inj in H. subst r. cbn. rewrite (IH _ eq_refl). reflexivity. Qed.
(** [r], with [x] added to the bytes left. *)
Definition more {A} (x : list Z) (r : res ioerr (A * list Z)) : res ioerr (A * list Z) :=
  match r with Ok (a, rest) => Ok (a, rest ++ x) | Err e => Err e | Panic => Panic | Hang => Hang end.
(** What foreign types and transforms do without the reader's error does not depend on what would have come. *)
Definition bad_agrees (w : world) (bw : bad_world) : Prop :=
  (forall n vs l r, bw_fdec bw n vs l = Own r -> forall x, w_fdec w n vs (l ++ x) = more x r) /\
  (forall n vs l r, bw_xdec bw n vs l = Own r -> forall x, w_xdec w n vs (l ++ x) = more x r).

(** The instruction asks for bytes, never for the end of the input; [lt], [lf], [lx]: so do these types, foreign types (with so many arguments) and transforms. *)
Fixpoint exact (lt : string -> bool) (lf : string -> nat -> bool) (lx : string -> bool) (i : dinstr) {struct i} : bool :=
  let all := fix all (l : list dinstr) : bool := match l with [] => true | i :: l => exact lt lf lx i && all l end in
  match i with
  | DWrap _ _ x _ => lx x
  | DCondWrap _ pre _ _ x _ => lx x && all pre
  | DForeign _ _ n args => lf n (List.length args)
  | DRef _ _ n _ => lt n
  | DPrimArr _ _ _ None | DReprArr _ _ _ None => false
  | DLoop _ stop _ _ body => match stop with Some _ => all body | None => false end
  | DCond _ _ body | DPred _ body => all body
  | _ => true
  end.
Definition exact_names (w : world) (bw : bad_world) (lf : string -> nat -> bool) (lx : string -> bool) : Prop :=
  (forall n vs l, lf n (List.length vs) = true -> bw_fdec bw n vs l = Failed -> w_fdec w n vs l = Err EEof) /\
  (forall n vs l, lx n = true -> bw_xdec bw n vs l = Failed -> w_xdec w n vs l = Err EEof).

Section Post.
  (** Only such instructions are run. *)
  Variable ex : Prop.
  (** What the reader would have delivered had it not failed. *)
  Variable c : list Z.
  Definition post {A B} (R : A -> B -> Prop) (f : rout A) (r : res ioerr B) : Prop :=
    (c <> [] /\ r = Hang) \/
    match f with
    | Failed => ex -> c = [] -> r = Err EEof
    | Own (Ok a) => exists b, r = Ok b /\ R a b
    | Own (Err e) => r = Err e
    | Own Panic => r = Panic
    | Own Hang => c = [] -> r = Hang
    end.
  Lemma post_bind {A B A' B'} (R : A -> B -> Prop) (R' : A' -> B' -> Prop) f r (k : A -> rout A') (k' : B -> res ioerr B') :
    post R f r -> (forall a b, R a b -> post R' (k a) (k' b)) -> post R' (rbind f k) (bind r k').
  Proof.
    intros [[Hc ->]|H] K; [left; split; [exact Hc|reflexivity]|]. destruct f as [[a|e| |]|]; cbn [rbind].
    - destruct H as (b & -> & HR). cbn [bind]. apply K, HR.
    - subst r. right. reflexivity.
    - subst r. right. reflexivity.
    - right. intros Hc. rewrite (H Hc). reflexivity.
    - right. intros X Hc. rewrite (H X Hc). reflexivity.
  Qed.
  Lemma post_ret {A B} (R : A -> B -> Prop) a b : R a b -> post R (Own (Ok a)) (Ok b).
  Proof. intros H. right. exists b. auto. Qed.
  Lemma post_same {A} (r : res ioerr A) : post eq (Own r) r.
  Proof. right. destruct r; auto. exists a. auto. Qed.
  Lemma post_pure_eq {A A' B'} (R' : A' -> B' -> Prop) (r : res ioerr A) (k : A -> rout A') (k' : A -> res ioerr B') :
    (forall a, r = Ok a -> post R' (k a) (k' a)) -> post R' (rbind (Own r) k) (bind r k').
  Proof. intros K. destruct r as [a|e| |]; [apply (K a eq_refl)| | |]; right; cbn; auto. Qed.
  Lemma post_pure {A A' B'} (R' : A' -> B' -> Prop) (r : res ioerr A) (k : A -> rout A') (k' : A -> res ioerr B') :
    (forall a, post R' (k a) (k' a)) -> post R' (rbind (Own r) k) (bind r k').
  Proof. intros K. eapply post_bind; [apply post_same|]. intros a b ->. apply K. Qed.
End Post.

Section Sim.
  Variable c : list Z.
  Variable ex : Prop.
  Variable bad0 : bool.
  (** What a stream still hides. *)
  Definition hides (bad : bool) (x : list Z) : Prop := (bad = false -> x = []) /\ (c = [] -> x = []).
  Definition srel (a : option nat * fstream) (b : option nat * stream) : Prop :=
    fst a = fst b /\
    match snd a, snd b with
    | FOwn l bad, SOwn l' => l' = l ++ (if bad then c else [])
    | FTake p n, STake p' n' => p = p' /\ n = n'
    | FAlias p, SAlias p' => p = p'
    | _, _ => False
    end.
  Definition strel (l : fstreams) (l' : streams) : Prop := Forall2 srel l l'.
  (** The last one is the caller's reader. *)
  Definition rooted (l : fstreams) : Prop := exists pre b, l = pre ++ [(None, FOwn b bad0)].
  Definition same (st : gst) (st' : dst) : Prop := gs_regs st = ds_regs st' /\ strel (gs_strs st) (ds_strs st') /\ rooted (gs_strs st).
  Definition sameo (o : gout) (o' : dout) : Prop :=
    match o, o' with GNext st, DNext st' => same st st' | GRet v st, DRet v' st' => v = v' /\ same st st' | _, _ => False end.
  Notation pst := (post ex c).

  Lemma avail_rel : forall l l', strel l l' -> forall k, match favail k l with Some (b, bad) => exists x, avail k l' = Some (b ++ x) /\ hides bad x | None => avail k l' = None end.
  Proof.
    induction 1 as [|[k1 s] [k2 s'] l l' [K S1] HL IH]; intros k; cbn [favail avail]; [reflexivity|]. cbn [fst snd] in K, S1. subst k2. destruct (key_eqb k k1); [|apply IH].
    destruct s as [b bad|p n|p]; destruct s' as [b'|p' n'|p']; try contradiction.
    - subst b'. exists (if bad then c else []). split; [reflexivity|]. split; [intros ->; reflexivity|intros ->; destruct bad; reflexivity].
    - destruct S1 as [-> ->]. specialize (IH p'). destruct (favail p' l) as [[b bad]|]; [|rewrite IH; reflexivity]. destruct IH as (x & -> & H1 & H2). exists (firstn (n' - List.length b) x). split; [rewrite firstn_app; reflexivity|].
      split; [|intros Hc; rewrite (H2 Hc); apply firstn_nil]. intros E. apply andb_false_iff in E as [E|E]; [rewrite (H1 E); apply firstn_nil|]. apply Nat.ltb_ge in E. replace (n' - List.length b)%nat with 0%nat by lia. reflexivity.
    - subst p'. apply IH.
  Qed.
  Lemma consume_rel : forall l l', strel l l' -> forall k n, match favail k l with Some (b, _) => (n <= List.length b)%nat | None => True end -> strel (fconsume k n l) (consume k n l').
  Proof.
    induction 1 as [|[k1 s] [k2 s'] l l' [K S1] HL IH]; intros k n H; cbn [fconsume consume]; [constructor|]. cbn [favail] in H. cbn [fst snd] in K, S1. subst k2. destruct (key_eqb k k1); [|constructor; [split; auto|apply IH, H]].
    destruct s as [b bad|p m|p]; destruct s' as [b'|p' m'|p']; try contradiction.
    - subst b'. constructor; [|exact HL]. split; [reflexivity|]. cbn [snd]. rewrite skipn_app. replace (n - List.length b)%nat with 0%nat by lia. reflexivity.
    - destruct S1 as [-> ->]. constructor; [split; cbn; auto|]. apply IH. destruct (favail p' l) as [[b bad]|]; [|exact I]. rewrite firstn_length in H. lia.
    - subst p'. constructor; [split; cbn; auto|]. apply IH, H.
  Qed.
  Lemma consume_root : forall l k n, rooted l -> rooted (fconsume k n l).
  Proof.
    intros l k n (pre & b & ->). revert k. induction pre as [|[k' s] pre IH]; intros k; cbn [app fconsume].
    - destruct (key_eqb k None); [exists [], (skipn n b)|exists [], b]; reflexivity.
    - assert (X : forall k s l, rooted l -> rooted ((k, s) :: l)) by (intros k0 s0 l0 (p0 & b0 & ->); exists ((k0, s0) :: p0), b0; reflexivity).
      assert (Y : rooted (pre ++ [(None, FOwn b bad0)])) by (exists pre, b; reflexivity).
      destruct (key_eqb k k'); [destruct s|]; apply X; auto.
  Qed.
  Lemma truncate_root n l : (0 < n)%nat -> rooted l -> rooted (truncate n l).
  Proof.
    intros H (pre & b & ->). unfold truncate. rewrite app_length. cbn [List.length]. rewrite skipn_app. replace (List.length pre + 1 - n - List.length pre)%nat with 0%nat by lia. eexists _, b. reflexivity.
  Qed.
  Lemma root_len l : rooted l -> (0 < List.length l)%nat.
  Proof. intros (pre & b & ->). rewrite app_length. cbn. lia. Qed.
  Lemma reg_rel st st' r : same st st' -> greg r st = dreg r st'.
  Proof. intros [E _]. unfold greg, dreg. rewrite E. reflexivity. Qed.
  Lemma regs_rel st st' : same st st' -> forall args, mapM (fun a => greg a st) args = mapM (fun a => dreg a st') args.
  Proof. intros H. induction args as [|a args IH]; cbn [mapM]; [reflexivity|]. rewrite (reg_rel _ _ a H), IH. reflexivity. Qed.
  Lemma nregs_rel {N} st st' : same st st' -> forall args : list (N * nat), mapM (fun nr => let! v := greg (snd nr) st in Ok (fst nr, v)) args = mapM (fun nr => let! v := dreg (snd nr) st' in Ok (fst nr, v)) args.
  Proof. intros H. induction args as [|a args IH]; cbn [mapM]; [reflexivity|]. rewrite (reg_rel _ _ (snd a) H), IH. reflexivity. Qed.
  Lemma oregs_rel st st' : same st st' -> forall args, mapM (fun r => let! v := greg r st in Ok (r, VOpt (Some v))) args = mapM (fun r => let! v := dreg r st' in Ok (r, VOpt (Some v))) args.
  Proof. intros H. induction args as [|a args IH]; cbn [mapM]; [reflexivity|]. rewrite (reg_rel _ _ a H), IH. reflexivity. Qed.
  Lemma let_rel r v st st' : same st st' -> same (glet r v st) (dlet r v st').
  Proof. intros [E S1]. split; cbn; [rewrite E; reflexivity|exact S1]. Qed.
  Lemma push_rel k s s' st st' : same st st' -> srel (k, s) (k, s') -> same (gpush k s st) (dpush k s' st').
  Proof. intros [E [S1 (pre & b & R)]] H. split; cbn; [exact E|]. split; [constructor; assumption|]. exists ((k, s) :: pre), b. rewrite R. reflexivity. Qed.
  Lemma truncate_rel n l l' : strel l l' -> strel (truncate n l) (truncate n l').
  Proof.
    intros H. unfold truncate. rewrite (f2_len _ _ _ H). generalize (List.length l' - n)%nat. intros k. revert l l' H. induction k as [|k IH]; intros l l' H; [exact H|]. destruct H; cbn; [constructor|apply IH; assumption].
  Qed.
  Lemma leave_rel st0 st0' st st' : same st0 st0' -> same st st' -> same (gleave st0 st) (dleave st0' st').
  Proof. intros [E0 [S0 R0]] [E [S1 R1]]. split; cbn; [rewrite E0, E; reflexivity|]. split; [|apply truncate_root; [apply root_len, R0|exact R1]]. rewrite (f2_len _ _ _ S0). apply truncate_rel, S1. Qed.
  Lemma avail_post s st st' : same st st' -> pst (fun lb l' => exists x, l' = fst lb ++ x /\ hides (snd lb) x /\ favail (key s) (gs_strs st) = Some lb) (gavail s st) (davail s st').
  Proof.
    intros [_ [S1 _]]. unfold gavail, davail. pose proof (avail_rel _ _ S1 (key s)) as H. destruct (favail (key s) (gs_strs st)) as [[b bad]|].
    - destruct H as (x & -> & Hx). right. exists (b ++ x). split; [reflexivity|]. exists x. auto.
    - rewrite H. right. reflexivity.
  Qed.
  Lemma skip_rel s n st st' lb : same st st' -> favail (key s) (gs_strs st) = Some lb -> (n <= List.length (fst lb))%nat -> same (gskip s n st) (dskip s n st').
  Proof. intros [E [S1 R]] F H. split; cbn; [exact E|]. split; [|apply consume_root, R]. apply consume_rel; [exact S1|]. rewrite F. destruct lb. exact H. Qed.

  Definition left {A} (x : list Z) (a b : A * list Z) : Prop := fst a = fst b /\ snd b = snd a ++ x.
  Lemma take_post {A} s (f : list Z -> bool -> rout (A * list Z)) (f' : list Z -> res ioerr (A * list Z)) st st' : same st st' ->
    (forall l bad x, hides bad x -> pst (left x) (f l bad) (f' (l ++ x))) ->
    pst (fun a b => fst a = fst b /\ same (snd a) (snd b)) (gtake s f st) (dtake s f' st').
  Proof.
    intros H K. unfold gtake, dtake. eapply post_bind; [apply avail_post, H|]. intros [l bad] l' (x & -> & Hx & F). cbn [fst snd] in *. eapply post_bind; [apply K, Hx|]. intros [a rest] [b rest'] [E1 E2]. cbn [fst snd] in *. subst b rest'.
    apply post_ret. split; [reflexivity|]. cbn [snd]. rewrite !app_length. replace (List.length l + List.length x - (List.length rest + List.length x))%nat with (List.length l - List.length rest)%nat by lia.
    eapply skip_rel; [exact H|exact F|cbn; lia].
  Qed.
  Lemma read_post n l bad x : hides bad x -> pst (left x) (gread n l bad) (read_exact n (l ++ x)).
  Proof.
    intros [H H2]. unfold gread, read_exact. rewrite app_length. destruct (Nat.leb_spec n (List.length l)) as [L|L].
    - replace (n <=? List.length l + List.length x)%nat with true by (symmetry; apply Nat.leb_le; lia). right. eexists. split; [reflexivity|]. split; cbn; [rewrite firstn_app; replace (n - List.length l)%nat with 0%nat by lia; cbn; rewrite app_nil_r; reflexivity|].
      rewrite skipn_app. replace (n - List.length l)%nat with 0%nat by lia. reflexivity.
    - destruct bad; [right; intros _ Hc; rewrite (H2 Hc); cbn [List.length]; replace (n <=? List.length l + 0)%nat with false by (symmetry; apply Nat.leb_gt; lia); reflexivity|]. rewrite (H eq_refl). cbn [List.length]. replace (n <=? List.length l + 0)%nat with false by (symmetry; apply Nat.leb_gt; lia). right. reflexivity.
  Qed.

  Variables (w : world) (bw : bad_world) (inputs : string -> option val).
  Hypothesis Hbw : bad_agrees w bw.
  Hypothesis Hfill : (forall n, (0 < n)%nat -> (0 < w_fill w n <= n)%nat) /\ (forall n m, (n <= m)%nat -> (w_fill w n <= w_fill w m)%nat).
  Variable rec : string -> list val -> list Z -> bool -> rout (val * list Z).
  Variable rec' : string -> list val -> list Z -> res ioerr (val * list Z).
  Variable lt : string -> bool.
  Variables (lf : string -> nat -> bool) (lx : string -> bool).
  Hypothesis Hex : ex -> exact_names w bw lf lx.
  Hypothesis Hrec : forall n vs l bad x, (bad = false -> x = []) -> post (ex /\ lt n = true) x (left x) (rec n vs l bad) (rec' n vs (l ++ x)).

  Lemma more_post {A} (r : res ioerr (A * list Z)) x r' : r' = more x r -> pst (left x) (Own r) r'.
  Proof. intros ->. destruct r as [[a rest]|e| |]; cbn; right; auto. exists (a, rest ++ x). repeat split. Qed.
  Lemma more_nil {A} (r : res ioerr (A * list Z)) : r = more [] r.
  Proof. destruct r as [[a rest]|e| |]; cbn; rewrite ?app_nil_r; reflexivity. Qed.
  Lemma foreign_post n vs l bad x : (ex -> lf n (List.length vs) = true) -> hides bad x -> pst (left x) (gforeign w bw n vs l bad) (w_fdec w n vs (l ++ x)).
  Proof.
    intros Hn [H H2]. unfold gforeign. destruct bad.
    - destruct (bw_fdec bw n vs l) as [r|] eqn:E; [|right; intros X Hc; rewrite (H2 Hc), app_nil_r; apply (proj1 (Hex X)); auto]. apply more_post. apply (proj1 Hbw), E.
    - rewrite (H eq_refl), app_nil_r. apply more_post, more_nil.
  Qed.
  Lemma plain_post n vs l bad x : (ex -> lx n = true) -> hides bad x -> pst (left x) (gplain w bw n vs l bad) (w_xdec w n vs (l ++ x)).
  Proof.
    intros Hn [H H2]. unfold gplain. destruct bad.
    - destruct (bw_xdec bw n vs l) as [r|] eqn:E; [|right; intros X Hc; rewrite (H2 Hc), app_nil_r; apply (proj2 (Hex X)); auto]. apply more_post. apply (proj2 Hbw), E.
    - rewrite (H eq_refl), app_nil_r. apply more_post, more_nil.
  Qed.
  Lemma rec_post n vs l bad x : (ex -> lt n = true) -> hides bad x -> pst (left x) (rec n vs l bad) (rec' n vs (l ++ x)).
  Proof.
    intros Hn [H1 H2]. destruct (Hrec n vs l bad x H1) as [[N E]|H]; [left; split; [intros Hc; apply N, H2, Hc|exact E]|]. right. destruct (rec n vs l bad) as [[]|]; auto.
  Qed.
  Lemma next_post st st' : same st st' -> pst sameo (Own (Ok (GNext st))) (Ok (DNext st')).
  Proof. intros H. apply post_ret. exact H. Qed.
  Lemma ret_post v st st' : same st st' -> pst sameo (Own (Ok (GRet v st))) (Ok (DRet v st')).
  Proof. intros H. apply post_ret. split; [reflexivity|exact H]. Qed.

  Lemma for_post body body' : (forall st st', same st st' -> pst sameo (body st) (body' st')) -> forall n st st', same st st' -> pst sameo (gfor n body st) (for_loop n body' st').
  Proof.
    intros H. induction n as [|n IH]; intros st st' S1; cbn [gfor for_loop]; [apply next_post, S1|]. eapply post_bind; [apply H, S1|]. intros [y|v y] [z|v' z] K; try contradiction K; [apply IH, K|destruct K as [-> K]; apply ret_post, K].
  Qed.
  (** The loops agree, or the one with more input is thought to be stuck. *)
  Lemma progress_post {A B} (R : A -> B -> Prop) (f : rout A) (r : res ioerr B) (n1 n2 m1 m2 : nat) : (c = [] -> n1 = n2 /\ m1 = m2) -> ((n1 <? m1)%nat = true -> (n2 <? m2)%nat = true -> pst R f r) ->
    pst R (if (n1 <? m1)%nat then f else Own Hang) (if (n2 <? m2)%nat then r else Hang).
  Proof.
    intros Hc K. destruct (n1 <? m1)%nat eqn:E1; destruct (n2 <? m2)%nat eqn:E2; auto.
    - destruct c; [|left; split; [discriminate|reflexivity]]. destruct (Hc eq_refl) as [-> ->]. congruence.
    - right. intros C. destruct (Hc C) as [-> ->]. congruence.
    - right. auto.
  Qed.
  Lemma while_post s body body' : ~ ex -> (forall st st', same st st' -> pst sameo (body st) (body' st')) -> forall n n' st st', (n <= n')%nat -> (c = [] -> n = n') -> same st st' -> pst sameo (gwhile n s body st) (while_loop n' s body' st').
  Proof.
    intros NX H. induction n as [|n IH]; intros n' st st' L Hn S1; cbn [gwhile]; [right; intros C; rewrite <- (Hn C); reflexivity|]. destruct n' as [|n']; [lia|]. cbn [while_loop]. eapply post_bind; [apply avail_post, S1|]. intros [l bad] l' (x & -> & Hx & F). cbn [fst snd] in *.
    destruct l as [|z l].
    - cbn [app]. destruct bad; cbn [gread_all rbind]; [right; intros X; contradiction|]. rewrite (proj1 Hx eq_refl). apply next_post, S1.
    - cbn [app]. eapply post_bind; [apply H, S1|]. intros [y|v y] [u|v' u] K; try contradiction K; [|destruct K as [-> K]; apply ret_post, K]. eapply post_bind; [apply avail_post, K|]. intros [l1 bad1] l1' (x1 & -> & Hx1 & F1). cbn [fst snd] in *.
      apply progress_post; [intros C; rewrite (proj2 Hx C), (proj2 Hx1 C), !app_nil_r; auto|]. intros _ _. apply IH; [lia|intros C; specialize (Hn C); lia|exact K].
  Qed.
  Lemma term_post s term body body' : ~ ex -> (forall st st', same st st' -> pst sameo (body st) (body' st')) ->
    forall n n' st st', (n <= n')%nat -> (c = [] -> n = n') -> same st st' -> pst sameo (gterm (w_fill w) n s term body st) (term_loop (w_fill w) n' s term body' st').
  Proof.
    intros NX H. induction n as [|n IH]; intros n' st st' L Hn S1; cbn [gterm]; [right; intros C; rewrite <- (Hn C); reflexivity|]. destruct n' as [|n']; [lia|]. cbn [term_loop]. eapply post_bind; [apply avail_post, S1|]. intros [l bad] l' (x & -> & Hx & F). cbn [fst snd] in *.
    destruct Hfill as [HF1 HF2]. rewrite !firstn_length. destruct l as [|z l].
    { cbn [List.length app]. rewrite Nat.min_0_r. cbn [Nat.eqb]. destruct bad; cbn [gread_all rbind]; [right; intros X; contradiction|]. rewrite (proj1 Hx eq_refl). rewrite Nat.min_0_r. cbn [Nat.eqb]. apply next_post, S1. }
    remember (z :: l) as q eqn:Eq. assert (P : (0 < List.length q)%nat) by (subst q; cbn; lia). clear z l Eq. pose proof (HF1 _ P) as P1. assert (P2 : (0 < List.length (q ++ x))%nat) by (rewrite app_length; lia). pose proof (HF1 _ P2) as P3. assert (P4 : (w_fill w (List.length q) <= w_fill w (List.length (q ++ x)))%nat) by (apply HF2; rewrite app_length; lia).
    rewrite !Nat.min_l by lia. destruct (Nat.eqb_spec (w_fill w (List.length q)) 0) as [E|_]; [lia|]. destruct (Nat.eqb_spec (w_fill w (List.length (q ++ x))) 0) as [E|_]; [lia|].
    destruct (Nat.ltb_spec (w_fill w (List.length q)) (List.length term)) as [E|E].
    { right. intros C. rewrite (proj2 Hx C), app_nil_r. replace (w_fill w (List.length q) <? List.length term)%nat with true by (symmetry; apply Nat.ltb_lt; lia). reflexivity. }
    replace (w_fill w (List.length (q ++ x)) <? List.length term)%nat with false by (symmetry; apply Nat.ltb_ge; lia). rewrite !firstn_firstn, !Nat.min_l by lia. replace (firstn (List.length term) (q ++ x)) with (firstn (List.length term) q) by (rewrite firstn_app; replace (List.length term - List.length q)%nat with 0%nat by lia; symmetry; apply app_nil_r).
    destruct (zlist_eqb (firstn (List.length term) q) term); [apply next_post; eapply skip_rel; [exact S1|exact F|cbn; lia]|].
    eapply post_bind; [apply H, S1|]. intros [y|v y] [u|v' u] K; try contradiction K; [|destruct K as [-> K]; apply ret_post, K]. eapply post_bind; [apply avail_post, K|]. intros [l1 bad1] l1' (x1 & -> & Hx1 & F1). cbn [fst snd] in *.
    apply progress_post; [intros C; rewrite (proj2 Hx C), (proj2 Hx1 C), !app_nil_r; auto|]. intros _ _. apply IH; [lia|intros C; specialize (Hn C); lia|exact K].
  Qed.

  Lemma take_let {A} s r (g : A -> val) (f : list Z -> bool -> rout (A * list Z)) f' st st' : same st st' -> (forall l bad x, hides bad x -> pst (left x) (f l bad) (f' (l ++ x))) ->
    pst sameo (let? vst := gtake s f st in Own (Ok (GNext (glet r (g (fst vst)) (snd vst))))) (let! (v, st) := dtake s f' st' in Ok (DNext (dlet r (g v) st))).
  Proof. intros H K. eapply post_bind; [apply take_post; [exact H|exact K]|]. intros [a y] [b z] [E H1]. cbn [fst snd] in *. subst b. apply next_post, let_rel, H1. Qed.

  Fixpoint run_post (i : dinstr) {struct i} : (ex -> exact lt lf lx i = true) -> forall st st', same st st' -> pst sameo (grun w bw inputs rec i st) (drun w inputs rec' i st').
  Proof.
    assert (HS : forall l, (forall i, In i l -> forall st st', same st st' -> pst sameo (grun w bw inputs rec i st) (drun w inputs rec' i st')) ->
      forall st st', same st st' -> pst sameo (gseq w bw inputs rec l st) (dseq w inputs rec' l st')).
    { induction l as [|j l IH]; intros Hl st st' S1; cbn [gseq dseq]; [apply next_post, S1|]. eapply post_bind; [apply Hl; [left; reflexivity|exact S1]|].
      intros [y|v y] [z|v' z] K; try contradiction K; [apply IH; [intros; apply Hl; [right; assumption|assumption]|exact K]|destruct K as [-> K]; apply ret_post, K]. }
    assert (HB : forall l : list dinstr, (fix go (l : list dinstr) : Prop := match l with [] => True | j :: l => (forall st st', same st st' -> pst sameo (grun w bw inputs rec j st) (drun w inputs rec' j st')) /\ go l end) l ->
      forall i, In i l -> forall st st', same st st' -> pst sameo (grun w bw inputs rec i st) (drun w inputs rec' i st')).
    { induction l as [|j l IH]; intros Hl i0 []; destruct Hl; [subst; assumption|apply IH; assumption]. }
    destruct i as [r e m|r k|s r len|s r x args|cd pre s r x args|s r n args|s r n args|d r s|s r q|s r q len|s r d len|s stop term out body|out item|ts cd body|cd body|r| |s len]; intros EX st st' S1; cbn [grun drun].
    - rewrite (proj1 S1). apply post_pure. intros v. apply next_post, let_rel, S1.
    - destruct k; rewrite ?(reg_rel _ _ _ S1), ?(nregs_rel _ _ S1); apply post_pure; intros v; apply next_post, let_rel, S1.
    - rewrite (reg_rel _ _ _ S1). apply post_pure. intros v. apply post_pure. intros n. eapply post_bind; [apply avail_post, S1|]. intros _ _ _. apply next_post, push_rel; [exact S1|]. repeat split.
    - rewrite (regs_rel _ _ S1). apply post_pure. intros vs. eapply post_bind; [apply take_post; [exact S1|intros; apply plain_post; [exact EX|assumption]]|]. intros [a y] [b z] [E H1]. cbn [fst snd] in *. subst b. apply next_post, push_rel; [exact H1|]. split; [reflexivity|]. symmetry. apply app_nil_r.
    - (* conditional transform *)
      assert (HX : ex -> (fix all (l : list dinstr) : bool := match l with [] => true | i :: l => exact lt lf lx i && all l end) pre = true) by (intros X; specialize (EX X); cbn [exact] in EX; apply andb_prop in EX; apply EX).
      assert (Hl : forall st st', same st st' -> pst sameo (gseq w bw inputs rec pre st) (dseq w inputs rec' pre st')) by (apply HS, HB; clear - run_post HX; induction pre as [|j0 l0 IH]; [exact I|split; [apply run_post; intros X; specialize (HX X); apply andb_prop in HX; apply HX|apply IH; intros X; specialize (HX X); apply andb_prop in HX; apply HX]]).
      rewrite (reg_rel _ _ _ S1). apply post_pure. intros cv. apply post_pure. intros b. eapply post_bind; [apply avail_post, S1|]. intros _ _ _. destruct b; [|apply next_post, push_rel; [exact S1|repeat split]].
      eapply post_bind; [apply Hl, S1|]. intros [y|v y] [z|v' z] K; try contradiction K; [|destruct K as [-> K]; apply ret_post, K]. rewrite (regs_rel _ _ K). apply post_pure. intros vs.
      eapply post_bind; [apply take_post; [apply leave_rel; [exact S1|exact K]|intros; apply plain_post; [intros X; specialize (EX X); cbn [exact] in EX; apply andb_prop in EX; apply EX|assumption]]|]. intros [a y1] [b z1] [E H1]. cbn [fst snd] in *. subst b. apply next_post, push_rel; [exact H1|]. split; [reflexivity|]. symmetry. apply app_nil_r.
    - rewrite (regs_rel _ _ S1). apply post_pure_eq. intros vs Ev. apply (take_let s r (fun v => v)); [exact S1|]. intros. apply foreign_post; [rewrite (mapM_len _ _ _ Ev); exact EX|assumption].
    - rewrite (regs_rel _ _ S1). apply post_pure. intros vs. apply (take_let s r (fun v => v)); [exact S1|]. intros. apply rec_post; [exact EX|assumption].
    - apply (take_let s r (fun v => v)); [exact S1|]. intros l bad x Hx. eapply post_bind; [apply read_post, Hx|]. intros [a y] [b z] [E H1]. cbn [fst snd] in *. subst b z. apply post_pure. intros v. apply post_ret. split; reflexivity.
    - apply (take_let s r (fun v => v)); [exact S1|]. intros l bad x Hx. eapply post_bind; [apply read_post, Hx|]. intros [a y] [b z] [E H1]. cbn [fst snd] in *. subst b z. apply post_ret. split; reflexivity.
    - assert (HN : ~ ex -> pst sameo (let? vst := gtake s (fun l bad => let? l := gread_all l bad in Own (Ok (VArr (map (prim_of q) (chunks (List.length l / prim_size q) (prim_size q) l)), []))) st in Own (Ok (GNext (glet r (fst vst) (snd vst)))))
          (let! (v, st) := dtake s (fun l => Ok (VArr (map (prim_of q) (chunks (List.length l / prim_size q) (prim_size q) l)), [])) st' in Ok (DNext (dlet r v st)))).
      { intros NX. apply (take_let s r (fun v => v)); [exact S1|]. intros l bad x Hx. destruct bad; [right; intros X; contradiction|]. rewrite (proj1 Hx eq_refl), app_nil_r. apply post_ret. split; reflexivity. }
      assert (HY : forall len, pst sameo (let? lv := Own (greg len st) in let? n := Own (arr_size (w_chk w) (prim_size q) lv) in
          let? vst := gtake s (fun l bad => let? ar := gread n l bad in Own (Ok (VArr (map (prim_of q) (chunks (n / prim_size q) (prim_size q) (fst ar))), snd ar))) st in Own (Ok (GNext (glet r (fst vst) (snd vst)))))
          (let! lv := dreg len st' in let! n := arr_size (w_chk w) (prim_size q) lv in let! (v, st) := dtake s (read_prims q n) st' in Ok (DNext (dlet r v st)))).
      { intros len0. rewrite (reg_rel _ _ _ S1). apply post_pure. intros lv. apply post_pure. intros n. apply (take_let s r (fun v => v)); [exact S1|]. intros l bad x Hx. unfold read_prims. eapply post_bind; [apply read_post, Hx|]. intros [a y] [b z] [E H1]. cbn [fst snd] in *. subst b z. apply post_ret. split; reflexivity. }
      destruct q; destruct len; try (right; reflexivity); try (apply HN; intros X; specialize (EX X); discriminate EX); apply HY.
    - destruct len as [len|].
      + rewrite (reg_rel _ _ _ S1). apply post_pure. intros lv. apply post_pure. intros n. apply (take_let s r (fun v => v)); [exact S1|]. intros l bad x Hx. unfold read_reprs. eapply post_bind; [apply read_post, Hx|]. intros [a y] [b z] [E H1]. cbn [fst snd] in *. subst b z. apply post_pure. intros vs. apply post_ret. split; reflexivity.
      + apply (take_let s r (fun v => v)); [exact S1|]. intros l bad x Hx. destruct bad; [right; intros X; specialize (EX X); discriminate EX|]. rewrite (proj1 Hx eq_refl), app_nil_r. cbn [gread_all]. change (rbind (Own (Ok l)) ?k) with (k l). cbv beta. apply post_pure. intros vs. apply post_ret. split; reflexivity.
    - (* loops *)
      assert (HX : ex -> (fix all (l : list dinstr) : bool := match l with [] => true | i :: l => exact lt lf lx i && all l end) body = true) by (intros X; specialize (EX X); cbn [exact] in EX; destruct stop; [exact EX|discriminate EX]).
      assert (Hl : forall st st', same st st' -> pst sameo (gseq w bw inputs rec body st) (dseq w inputs rec' body st')) by (apply HS, HB; clear - run_post HX; induction body as [|j0 l0 IH]; [exact I|split; [apply run_post; intros X; specialize (HX X); apply andb_prop in HX; apply HX|apply IH; intros X; specialize (HX X); apply andb_prop in HX; apply HX]]).
      assert (Hi : forall st st', same st st' -> pst sameo (let? o := gseq w bw inputs rec body st in match o with GNext st' => Own (Ok (GNext (gleave st st'))) | o => Own (Ok o) end)
        (let! o := dseq w inputs rec' body st' in match o with DNext st'' => Ok (DNext (dleave st' st'')) | o => Ok o end)).
      { intros y0 z0 H0. eapply post_bind; [apply Hl, H0|]. intros [y|v y] [z|v' z] K; try contradiction K; [apply next_post, leave_rel; assumption|destruct K as [-> K]; apply ret_post, K]. }
      destruct stop as [stop|]; [|destruct term as [term|]].
      + rewrite (reg_rel _ _ _ S1). apply post_pure. intros v. apply post_pure. intros n. apply for_post; [exact Hi|apply let_rel, S1].
      + rewrite (reg_rel _ _ _ S1). apply post_pure. intros v. apply post_pure. intros tb. eapply post_bind; [apply avail_post, S1|]. intros [l bad] l' (x & -> & Hx & F). cbn [fst snd] in *.
        apply term_post; [intros X; specialize (EX X); discriminate EX|exact Hi|rewrite app_length; lia|intros C; rewrite (proj2 Hx C), app_nil_r; reflexivity|apply let_rel, S1].
      + eapply post_bind; [apply avail_post, S1|]. intros [l bad] l' (x & -> & Hx & F). cbn [fst snd] in *. destruct bad; [right; intros X; specialize (EX X); discriminate EX|]. rewrite (proj1 Hx eq_refl), app_nil_r. cbn [gread_all]. change (rbind (Own (Ok l)) ?k) with (k l). cbv beta zeta.
        assert (S2 : same (gskip s (List.length l) (glet out (VArr []) st)) (dskip s (List.length l) (dlet out (VArr []) st'))) by (eapply skip_rel; [apply let_rel, S1|exact F|cbn; lia]).
        eapply post_bind; [apply while_post; [intros X; specialize (EX X); discriminate EX|exact Hi|apply le_n|reflexivity|apply push_rel; [exact S2|split; [reflexivity|symmetry; apply app_nil_r]]]|].
        intros [y|v y] [z|v' z] K; try contradiction K; [|destruct K as [-> K]; apply ret_post, K]. apply next_post. destruct K as [K1 K2]. split; cbn [gs_regs ds_regs gs_strs ds_strs]; [exact K1|]. destruct K2 as [K2 K3], S2 as [_ [S2 S3]]. split; [|apply truncate_root; [apply root_len, S3|exact K3]]. rewrite (f2_len _ _ _ S2). apply truncate_rel, K2.
    - rewrite (reg_rel _ _ _ S1), (proj1 S1). apply post_pure. intros v. apply post_pure. intros rs. apply next_post. split; [reflexivity|apply S1].
    - assert (HX : ex -> (fix all (l : list dinstr) : bool := match l with [] => true | i :: l => exact lt lf lx i && all l end) body = true) by (exact EX).
      assert (Hl : forall st st', same st st' -> pst sameo (gseq w bw inputs rec body st) (dseq w inputs rec' body st')) by (apply HS, HB; clear - run_post HX; induction body as [|j0 l0 IH]; [exact I|split; [apply run_post; intros X; specialize (HX X); apply andb_prop in HX; apply HX|apply IH; intros X; specialize (HX X); apply andb_prop in HX; apply HX]]).
      rewrite (reg_rel _ _ _ S1). apply post_pure. intros cv. apply post_pure. intros b. destruct b; [|apply next_post; split; cbn; [rewrite (proj1 S1); reflexivity|apply S1]].
      eapply post_bind; [apply Hl, S1|]. intros [y|v y] [z|v' z] K; try contradiction K; [|destruct K as [-> K]; apply ret_post, K]. rewrite (oregs_rel _ _ K). apply post_pure. intros vs. apply next_post. destruct (leave_rel _ _ _ _ S1 K) as [K1 K2]. split; cbn [gs_regs ds_regs gs_strs ds_strs] in *; [|exact K2]. f_equal. exact K1.
    - assert (HX : ex -> (fix all (l : list dinstr) : bool := match l with [] => true | i :: l => exact lt lf lx i && all l end) body = true) by (exact EX).
      assert (Hl : forall st st', same st st' -> pst sameo (gseq w bw inputs rec body st) (dseq w inputs rec' body st')) by (apply HS, HB; clear - run_post HX; induction body as [|j0 l0 IH]; [exact I|split; [apply run_post; intros X; specialize (HX X); apply andb_prop in HX; apply HX|apply IH; intros X; specialize (HX X); apply andb_prop in HX; apply HX]]).
      rewrite (reg_rel _ _ _ S1). apply post_pure. intros cv. apply post_pure. intros b. destruct b; [|apply next_post, S1].
      eapply post_bind; [apply Hl, S1|]. intros [y|v y] [z|v' z] K; try contradiction K; [|destruct K as [-> K]; apply ret_post, K]. apply next_post, leave_rel; assumption.
    - rewrite (reg_rel _ _ _ S1). apply post_pure. intros v. apply ret_post, S1.
    - right. reflexivity.
    - rewrite (reg_rel _ _ _ S1). apply post_pure. intros lv. apply post_pure. intros n. eapply post_bind; [apply take_post; [exact S1|intros; apply read_post; assumption]|]. intros [a y] [b z] [E H1]. apply next_post, H1.
  Qed.
  Lemma seq_post l : (ex -> forallb (exact lt lf lx) l = true) -> forall st st', same st st' -> pst sameo (gseq w bw inputs rec l st) (dseq w inputs rec' l st').
  Proof.
    induction l as [|j l IH]; intros EX st st' S1; cbn [gseq dseq]; [apply next_post, S1|]. eapply post_bind; [apply run_post; [intros X; specialize (EX X); apply andb_prop in EX; apply EX|exact S1]|]. intros [y|v y] [z|v' z] K; try contradiction K; [apply IH; [intros X; specialize (EX X); apply andb_prop in EX; apply EX|exact K]|destruct K as [-> K]; apply ret_post, K].
  Qed.
End Sim.

(** ** All declarations *)
Theorem gdecode_post (ex : Prop) lt lf lx w bw p rf : bad_agrees w bw -> (forall n, (0 < n)%nat -> (0 < w_fill w n <= n)%nat) -> (forall n m, (n <= m)%nat -> (w_fill w n <= w_fill w m)%nat) ->
  (ex -> exact_names w bw lf lx) -> (ex -> forall n d code, lt n = true -> p n = Some d -> dec_code p rf d = Some code -> forallb (exact lt lf lx) code = true) ->
  forall fuel n vs l bad x, (bad = false -> x = []) -> post (ex /\ lt n = true) x (left x) (gdecode w bw p rf fuel n vs l bad) (decode w p rf fuel n vs (l ++ x)).
Proof.
  intros Hbw HF1 HF2 HE HC. induction fuel as [|fuel IH]; intros n vs l bad x Hx; cbn [gdecode decode]; [right; auto|]. destruct (p n) as [d|] eqn:Ed; [|right; reflexivity]. cbn [of_some]. change (rbind (Own (Ok d)) ?k) with (k d). cbn [bind]. cbv beta.
  destruct (dec_code p rf d) as [code|] eqn:Ec; [|right; reflexivity]. cbn [of_some]. change (rbind (Own (Ok code)) ?k) with (k code). cbn [bind]. cbv beta. apply post_pure. intros inp. unfold grun_top, drun_top.
  eapply post_bind; [apply (seq_post x (ex /\ lt n = true) bad w bw _ Hbw (conj HF1 HF2) _ _ lt lf lx (fun X => HE (proj1 X))); [|intros X; apply (HC (proj1 X) n d); [apply X|assumption|assumption]|]|].
  - intros n0 vs0 l0 bad1 x0 Hx0. destruct (IH n0 vs0 l0 bad1 x0 Hx0) as [G|G]; [left; exact G|right]. destruct (gdecode w bw p rf fuel n0 vs0 l0 bad1) as [[]|]; auto. intros [X1 X2]. apply G. split; [apply X1|exact X2].
  - split; [reflexivity|]. split; [|exists [], l; reflexivity]. constructor; [|constructor]. split; [reflexivity|]. cbn [snd]. destruct bad; [reflexivity|]. rewrite (Hx eq_refl). reflexivity.
  - intros [y|v y] [z|v' z] K; try contradiction K; [right; reflexivity|]. destruct K as [-> [_ [K R]]]. pose proof (truncate_rel _ 1 _ _ K) as T.
    destruct R as (pre & b & R). rewrite R in *. assert (E1 : truncate 1 (pre ++ [(None, FOwn b bad)]) = [(None, FOwn b bad)]).
    { unfold truncate. rewrite app_length. cbn [List.length]. rewrite skipn_app. replace (List.length pre + 1 - 1)%nat with (List.length pre) by lia. rewrite skipn_all, Nat.sub_diag. reflexivity. }
    rewrite E1 in *. inversion T as [|? [k s] ? ? [A B] C]; subst. inversion C; subst. cbn [fst snd] in A, B. subst k. destruct s as [b'| |]; try contradiction. subst b'. cbn [favail avail key_eqb of_some rbind bind fst].
    right. eexists. split; [reflexivity|]. split; [reflexivity|]. cbn [snd fst]. destruct bad; [reflexivity|]. rewrite (Hx eq_refl). reflexivity.
Qed.
