(** C27: detection of recursive types. *)
From Verif Require Import Base Scalar ConstInt Tokens Ast Parse Front Program FrontFacts P_Types P_Args ElabSpec ElabFacts ElabTypes ElabProgram P_Program ImportSpec P_Imports CycleSpec.
From Coq Require Import Lia.
Open Scope string_scope. Open Scope Z_scope. Open Scope list_scope.

Lemma mem_in x l : mem x l = true <-> In x l.
Proof. unfold mem. rewrite existsb_exists. split; [intros (y & H & E); apply name_eqb_eq in E as ->; exact H|intros H; exists x; split; [exact H|apply name_eqb_refl]]. Qed.

Section Gather.
  Variable p : prog.
  Definition enter (n : nat) (i : nat) (acc : list name) : R (list name) :=
    match fget p i with
    | None => Panic
    | Some f => if mem (f_name f) acc then Ok acc else gather n p (f_type f) (acc ++ [f_name f])
    end.
  Definition enters (n : nat) (items : list (name * nat)) (r : R (list name)) : R (list name) :=
    fold_left (fun (r : R (list name)) (x : name * nat) => let! acc := r in enter n (snd x) acc) items r.
  Lemma gather_S n t acc : gather (S n) p t acc =
    match t with FArr el _ _ => gather n p el acc | FCont _ items _ => enters n items (Ok acc) | FRef i _ => enter n i acc | _ => Ok acc end.
  Proof. destruct t; reflexivity. Qed.
  Lemma enters_cons n x items acc : enters n (x :: items) (Ok acc) = enters n items (enter n (snd x) acc). Proof. reflexivity. Qed.
  Lemma enters_bad n items r : (forall a, r <> Ok a) -> enters n items r = r.
  Proof. revert r. induction items as [|x l IH]; intros r N; [reflexivity|]. cbn [enters fold_left]. change (enters n l (let! acc := r in enter n (snd x) acc) = r). destruct r; [congruence| | |]; apply IH; discriminate. Qed.

  Definition under (t : fty) (j : nat) : Prop := exists i, In i (mentions t) /\ met p i j.
  Lemma met_step i j k : edge p i j -> met p j k -> reaches p i k.
  Proof. intros E [->|R]; [apply reaches_one; exact E|eapply reaches_more; eassumption]. Qed.

  (** Soundness: what is collected is the name of something reachable. *)
  Definition sound (t : fty) (acc acc' : list name) : Prop :=
    incl acc acc' /\ forall x, In x acc' -> In x acc \/ exists j f, under t j /\ fget p j = Some f /\ f_name f = x.
  Lemma gather_sound : forall n t acc acc', gather n p t acc = Ok acc' -> sound t acc acc'.
  Proof.
    induction n as [|n IH]; intros t acc acc' H; [discriminate H|]. rewrite gather_S in H.
    assert (En : forall i acc acc', enter n i acc = Ok acc' -> incl acc acc' /\ forall x, In x acc' -> In x acc \/ exists j f, met p i j /\ fget p j = Some f /\ f_name f = x).
    { clear H t acc acc'. intros i acc acc' H. unfold enter in H. destruct (fget p i) as [f|] eqn:Ef; [|discriminate H]. destruct (mem (f_name f) acc).
      - apply Ok_inj in H. subst. split; [apply incl_refl|auto].
      - apply IH in H as [A B]. split; [intros x Hx; apply A, in_or_app; left; exact Hx|]. intros x Hx. destruct (B x Hx) as [K|(j & g & (k & Hk & Mk) & Eg & <-)].
        + apply in_app_or in K as [K|[<-|[]]]; [left; exact K|]. right. exists i, f. split; [left; reflexivity|auto].
        + right. exists j, g. split; [|auto]. right. apply (met_step i k); [|exact Mk]. exists f. auto. }
    assert (Es : forall items acc acc', enters n items (Ok acc) = Ok acc' -> incl acc acc' /\ forall x, In x acc' -> In x acc \/ exists i j f, In i (map snd items) /\ met p i j /\ fget p j = Some f /\ f_name f = x).
    { clear H t acc acc'. induction items as [|[y i] l IHl]; intros acc acc' H; [apply Ok_inj in H; subst; split; [apply incl_refl|auto]|]. rewrite enters_cons in H. cbn [snd] in H.
      destruct (enter n i acc) as [acc1| | |] eqn:E; try (rewrite enters_bad in H by discriminate; discriminate H). apply En in E as [A B]. apply IHl in H as [A' B']. split; [eapply incl_tran; eassumption|].
      intros x Hx. destruct (B' x Hx) as [K|(k & j & f & Hk & Mk & Ef & En')]; [|right; exists k, j, f; split; [right; exact Hk|auto]]. destruct (B x K) as [K'|(j & f & Mj & Ef & En')]; [left; exact K'|].
      right. exists i, j, f. split; [left; reflexivity|auto]. }
    destruct t; try (apply Ok_inj in H; subst; split; [apply incl_refl|auto]).
    - apply En in H as [A B]. split; [exact A|]. intros x Hx. destruct (B x Hx) as [K|(j & f & Mj & Ef & En')]; [left; exact K|]. right. exists j, f. split; [|auto]. eexists. split; [left; reflexivity|exact Mj].
    - apply IH in H. exact H.
    - apply Es in H as [A B]. split; [exact A|]. intros x Hx. destruct (B x Hx) as [K|(i & j & f & Hi & Mj & Ef & En')]; [left; exact K|]. right. exists j, f. split; [|auto]. exists i. auto.
  Qed.

  (** Completeness, among a set [D] of fields with distinct names. *)
  Variable D : nat -> Prop.
  Hypothesis closed : forall i j, D i -> edge p i j -> D j.
  Hypothesis distinct : forall j k g h, D j -> D k -> fget p j = Some g -> fget p k = Some h -> f_name g = f_name h -> j = k.
  Definition named (i : nat) (acc : list name) : Prop := exists f, fget p i = Some f /\ In (f_name f) acc.
  Definition full (acc acc' : list name) : Prop := incl acc acc' /\
    forall j f, D j -> fget p j = Some f -> In (f_name f) acc' -> ~ In (f_name f) acc -> forall k, In k (mentions (f_type f)) -> named k acc'.
  Lemma named_incl i a b : named i a -> incl a b -> named i b. Proof. intros (f & E & I) S. exists f. auto. Qed.
  Lemma full_refl acc : full acc acc. Proof. split; [apply incl_refl|]. intros; contradiction. Qed.
  Lemma full_trans a b c : full a b -> full b c -> full a c.
  Proof.
    intros [A1 A2] [B1 B2]. split; [eapply incl_tran; eassumption|]. intros j f Dj Ej I N k Hk. destruct (mem (f_name f) b) eqn:M.
    - apply mem_in in M. eapply named_incl; [eapply A2; eassumption|exact B1].
    - apply (B2 j f); auto. rewrite <- mem_in. congruence.
  Qed.
  Lemma gather_full : forall n t acc acc', gather n p t acc = Ok acc' -> (forall i, In i (mentions t) -> D i) -> full acc acc' /\ forall i, In i (mentions t) -> named i acc'.
  Proof.
    induction n as [|n IH]; intros t acc acc' H Dt; [discriminate H|]. rewrite gather_S in H.
    assert (En : forall i acc acc', enter n i acc = Ok acc' -> D i -> full acc acc' /\ named i acc').
    { clear H t acc acc' Dt. intros i acc acc' H Di. unfold enter in H. destruct (fget p i) as [f|] eqn:Ef; [|discriminate H]. destruct (mem (f_name f) acc) eqn:M.
      - apply Ok_inj in H. subst. apply mem_in in M. split; [apply full_refl|exists f; auto].
      - apply IH in H as [[A B] C]; [|intros k Hk; eapply closed; [exact Di|exists f; auto]]. split.
        + split; [intros x Hx; apply A, in_or_app; left; exact Hx|]. intros j g Dj Eg I N k Hk. destruct (name_eqb (f_name g) (f_name f)) eqn:Ne.
          * apply name_eqb_eq in Ne. assert (j = i) by (eapply distinct; eassumption). subst j. rewrite Ef in Eg. injection Eg as <-. apply C. exact Hk.
          * apply name_eqb_neq in Ne. eapply B; try eassumption. rewrite in_app_iff. intros [K|[K|[]]]; [contradiction|congruence].
        + exists f. split; [exact Ef|]. apply A, in_or_app. right. left. reflexivity. }
    assert (Es : forall items acc acc', enters n items (Ok acc) = Ok acc' -> (forall i, In i (map snd items) -> D i) -> full acc acc' /\ forall i, In i (map snd items) -> named i acc').
    { clear H t acc acc' Dt. induction items as [|[y i] l IHl]; intros acc acc' H Dl; [apply Ok_inj in H; subst; split; [apply full_refl|intros i []]|]. rewrite enters_cons in H. cbn [snd] in H.
      destruct (enter n i acc) as [acc1| | |] eqn:E; try (rewrite enters_bad in H by discriminate; discriminate H). apply En in E as [A B]; [|apply Dl; left; reflexivity].
      apply IHl in H as [A' B']; [|intros k Hk; apply Dl; right; exact Hk]. split; [eapply full_trans; eassumption|]. intros k [<-|Hk]; [eapply named_incl; [exact B|apply A']|apply B'; exact Hk]. }
    destruct t; try (apply Ok_inj in H; subst; split; [apply full_refl|intros i []]).
    - apply En in H as [A B]; [|apply Dt; left; reflexivity]. split; [exact A|]. intros i [<-|[]]. exact B.
    - apply IH in H; [exact H|exact Dt].
    - apply Es in H; [exact H|exact Dt].
  Qed.
End Gather.

(** One type: its name is collected iff it reaches itself. *)
Lemma gather_iff n p i f names : fget p i = Some f -> gather n p (f_type f) [] = Ok names -> own_names p i -> (In (f_name f) names <-> reaches p i i).
Proof.
  intros Ef G Ow. split.
  - intros I. destruct (proj2 (gather_sound p n _ _ _ G) _ I) as [[]|(j & g & (k & Hk & Mk) & Eg & Nm)].
    assert (R : reaches p i j) by (apply (met_step p i k); [exists f; auto|exact Mk]).
    rewrite (Ow i j f g (or_introl eq_refl) (or_intror R) Ef Eg) at 2 by congruence. exact R.
  - assert (Cl : forall j k, met p i j -> edge p j k -> met p i k).
    { intros j k M E. right. destruct M as [->|R]; [apply reaches_one; exact E|]. clear - R E. induction R; eauto using reaches_one, reaches_more. }
    destruct (gather_full p (met p i) Cl Ow n _ _ _ G) as [[_ Fu] Na].
    { intros k Hk. right. apply reaches_one. exists f. auto. }
    assert (All : forall a b, reaches p a b -> (a = i \/ (met p i a /\ named p a names)) -> named p b names).
    { induction 1 as [a b E|a b c E R IH]; intros Ha.
      - destruct E as (g & Eg & Hb). destruct Ha as [->|[Ma (g' & Eg' & Ig)]]; [rewrite Ef in Eg; injection Eg as <-; apply Na, Hb|]. rewrite Eg in Eg'. injection Eg' as <-. eapply Fu; eauto.
      - apply IH. right. destruct E as (g & Eg & Hb). split.
        + destruct Ha as [->|[Ma _]]; [right; apply reaches_one; exists g; auto|]. eapply Cl; [exact Ma|exists g; auto].
        + destruct Ha as [->|[Ma (g' & Eg' & Ig)]]; [rewrite Ef in Eg; injection Eg as <-; apply Na, Hb|]. rewrite Eg in Eg'. injection Eg' as <-. eapply Fu; eauto. }
    intros R. destruct (All i i R (or_introl eq_refl)) as (g & Eg & I). rewrite Ef in Eg. injection Eg as <-. exact I.
Qed.

(** ** Termination *)
Fixpoint tdepth (t : fty) : nat := match t with FArr el _ _ => S (tdepth el) | _ => 0%nat end.
Definition unseen (st : list field) (acc : list name) : nat := List.length (filter (fun f => negb (mem (f_name f) acc)) st).
Lemma unseen_le st a b : incl a b -> (unseen st b <= unseen st a)%nat.
Proof.
  intros S. unfold unseen. induction st as [|f st IH]; cbn [filter]; [lia|]. destruct (mem (f_name f) a) eqn:A; cbn [negb].
  - apply mem_in, S, mem_in in A. rewrite A. exact IH.
  - destruct (mem (f_name f) b); cbn [negb List.length]; lia.
Qed.
Lemma unseen_lt st acc f : In f st -> mem (f_name f) acc = false -> (unseen st (acc ++ [f_name f]) < unseen st acc)%nat.
Proof.
  intros I M. unfold unseen. induction st as [|g st IH]; [destruct I|]. cbn [filter].
  assert (L : (unseen st (acc ++ [f_name f]) <= unseen st acc)%nat) by (apply unseen_le; intros x Hx; apply in_or_app; left; exact Hx). unfold unseen in L.
  destruct I as [->|I].
  - assert (E : mem (f_name f) (acc ++ [f_name f]) = true) by (apply mem_in, in_or_app; right; left; reflexivity). rewrite E, M. cbn [negb List.length]. lia.
  - specialize (IH I). destruct (mem (f_name g) acc) eqn:A; cbn [negb].
    + assert (E : mem (f_name g) (acc ++ [f_name f]) = true) by (apply mem_in, in_or_app; left; apply mem_in; exact A). rewrite E. exact IH.
    + destruct (mem (f_name g) (acc ++ [f_name f])); cbn [negb List.length]; lia.
Qed.
Lemma gather_total p d : (forall i f, fget p i = Some f -> (tdepth (f_type f) <= d)%nat) ->
  forall n t acc, (unseen (p_store p) acc * (S d) + tdepth t < n)%nat -> gather n p t acc <> Hang.
Proof.
  intros Hd. induction n as [|n IH]; intros t acc L; [lia|]. rewrite gather_S.
  assert (En : forall i acc, (unseen (p_store p) acc * S d < S n)%nat -> enter p n i acc <> Hang).
  { clear t acc L. intros i acc L. unfold enter. destruct (fget p i) as [f|] eqn:Ef; [|discriminate]. destruct (mem (f_name f) acc) eqn:M; [discriminate|]. apply IH.
    pose proof (unseen_lt (p_store p) acc f (nth_error_In _ _ Ef) M). specialize (Hd _ _ Ef). nia. }
  assert (Es : forall items acc, (unseen (p_store p) acc * S d < S n)%nat -> enters p n items (Ok acc) <> Hang).
  { clear t acc L. induction items as [|[y i] l IHl]; intros acc L; [discriminate|]. rewrite enters_cons. cbn [snd]. pose proof (En i acc L) as N. destruct (enter p n i acc) as [acc1| | |] eqn:E; try (rewrite enters_bad by discriminate; discriminate); [|congruence].
    apply IHl. assert (S : incl acc acc1).
    { unfold enter in E. destruct (fget p i) as [f|]; [|discriminate E]. destruct (mem (f_name f) acc); [apply Ok_inj in E; subst; apply incl_refl|]. apply gather_sound in E as [S _]. intros x Hx. apply S, in_or_app. left. exact Hx. }
    pose proof (unseen_le (p_store p) _ _ S). nia. }
  destruct t; cbn [tdepth] in L; try discriminate; [apply En; lia|apply IH; lia|apply Es; lia].
Qed.

(** ** The scan *)
Definition key (f : field) : name * fty := (f_name f, f_type f).
Definition alike (p q : prog) : Prop := forall i, option_map key (fget p i) = option_map key (fget q i).
Lemma alike_get p q i f : alike p q -> fget p i = Some f -> exists g, fget q i = Some g /\ f_name g = f_name f /\ f_type g = f_type f.
Proof. intros A E. specialize (A i). rewrite E in A. destruct (fget q i) as [g|]; [|discriminate A]. cbn in A. injection A as A B. exists g. auto. Qed.
Lemma alike_sym p q : alike p q -> alike q p. Proof. intros A i. symmetry. apply A. Qed.
Lemma alike_trans p q r : alike p q -> alike q r -> alike p r. Proof. intros A B i. rewrite A. apply B. Qed.
Lemma alike_edge p q i j : alike p q -> edge p i j -> edge q i j.
Proof. intros A (f & E & I). destruct (alike_get _ _ _ _ A E) as (g & Eg & _ & T). exists g. rewrite T. auto. Qed.
Lemma alike_reaches p q i j : alike p q -> reaches p i j -> reaches q i j.
Proof. intros A R. induction R; [apply reaches_one; eapply alike_edge; eassumption|eapply reaches_more; [eapply alike_edge; eassumption|assumption]]. Qed.
Lemma alike_own p q i : alike p q -> own_names p i -> own_names q i.
Proof.
  intros A O j k g h Mj Mk Eg Eh N. apply alike_sym in A. destruct (alike_get _ _ _ _ A Eg) as (g' & Eg' & Ng & _). destruct (alike_get _ _ _ _ A Eh) as (h' & Eh' & Nh & _).
  apply (O j k g' h'); try congruence; [destruct Mj as [->|R]|destruct Mk as [->|R]]; solve [left; reflexivity|right; eapply alike_reaches; eassumption].
Qed.
Lemma alike_cyclic p i : alike p (st_set p i set_cyclic).
Proof.
  intros j. destruct (Nat.eq_dec i j) as [<-|N]; [|rewrite st_set_other by exact N; reflexivity].
  destruct (fget p i) as [f|] eqn:E; [rewrite (st_set_same _ _ _ _ E); reflexivity|]. unfold fget, st_set in *. cbn [p_store]. apply nth_error_None in E.
  rewrite (proj2 (nth_error_None _ _)); [reflexivity|]. clear - E. revert i E. induction (p_store p) as [|x l IH]; intros i E; [exact E|]. destruct i; cbn in *; [lia|]. apply le_n_S, IH. lia.
Qed.
(** A field is marked exactly if it was, or if it is among the scanned ones and something reachable has its name. *)
Definition namesake (p : prog) (i : nat) : Prop := exists j f g, fget p i = Some f /\ fget p j = Some g /\ reaches p i j /\ f_name g = f_name f.
Lemma scan_marks n : forall l p p', scan n l p = Ok p' -> alike p p' /\
  forall i f f', fget p i = Some f -> fget p' i = Some f' ->
    (f_cyclic f = true -> f_cyclic f' = true) /\ (f_cyclic f' = true -> f_cyclic f = true \/ (In i (map snd l) /\ namesake p i)) /\
    (In i (map snd l) -> own_names p i -> reaches p i i -> f_cyclic f' = true).
Proof.
  induction l as [|[x k] l IH]; intros p p' H.
  - apply Ok_inj in H. subst. split; [intros i; reflexivity|]. intros i f f' E E'. rewrite E in E'. injection E' as <-. repeat split; auto.
  - cbn [scan] in H. destruct (fget p k) as [fk|] eqn:Ek; [|discriminate H]. destruct (gather n p (f_type fk) []) as [names| | |] eqn:G; cbn [bind] in H; try discriminate H.
    destruct (mem (f_name fk) names) eqn:M.
    + apply IH in H as [A B]. pose proof (alike_cyclic p k) as A0. split; [eapply alike_trans; eassumption|]. intros i f f' E E'. cbn [map snd].
      assert (K : exists f0, fget (st_set p k set_cyclic) i = Some f0 /\ (i = k -> f_cyclic f0 = true) /\ (i <> k -> f0 = f)).
      { destruct (Nat.eq_dec k i) as [<-|N]; [|exists f; rewrite st_set_other by exact N; split; [exact E|]; split; [intros ->; contradiction|auto]]. rewrite (st_set_same _ _ _ _ E). eexists. split; [reflexivity|]. split; [reflexivity|contradiction]. }
      destruct K as (f0 & E0 & K1 & K2). destruct (B i f0 f' E0 E') as (B1 & B2 & B3). split; [|split].
      * intros C. apply B1. destruct (Nat.eq_dec i k) as [->|N]; [auto|]. rewrite (K2 N). exact C.
      * intros C. destruct (Nat.eq_dec i k) as [->|N].
        -- right. split; [left; reflexivity|]. apply mem_in in M. destruct (proj2 (gather_sound p n _ _ _ G) _ M) as [[]|(j & g & (a & Ha & Ma) & Eg & Nm)].
           exists j, fk, g. split; [exact Ek|]. split; [exact Eg|]. split; [|exact Nm]. apply (met_step p k a); [exists fk; auto|exact Ma].
        -- rewrite (K2 N) in B2. destruct (B2 C) as [C'|(I & j & a & b & Ea & Eb & R & Nm)]; [left; exact C'|right]. split; [right; exact I|]. apply alike_sym in A0.
           destruct (alike_get _ _ _ _ A0 Ea) as (a' & Ea' & Na & _). destruct (alike_get _ _ _ _ A0 Eb) as (b' & Eb' & Nb & _). exists j, a', b'. repeat split; try assumption; [eapply alike_reaches; eassumption|congruence].
      * intros I O R. destruct (Nat.eq_dec i k) as [->|N]; [apply B1; auto|]. destruct I as [I|I]; [congruence|]. apply B3; [exact I|eapply alike_own; eassumption|eapply alike_reaches; eassumption].
    + apply IH in H as [A B]. split; [exact A|]. intros i f f' E E'. destruct (B i f f' E E') as (B1 & B2 & B3). cbn [map snd]. split; [exact B1|]. split; [intros C; destruct (B2 C) as [?|[? ?]]; [auto|right; split; [right; assumption|assumption]]|].
      intros [<-|I] O R; [|auto]. rewrite Ek in E. injection E as <-. apply (gather_iff n p k fk names Ek G O) in R. apply mem_in in R. congruence.
Qed.

(** ** Nothing else marks a type *)
Definition calm (p p' : prog) : Prop := forall i f', fget p' i = Some f' -> f_cyclic f' = true -> exists f, fget p i = Some f /\ f_cyclic f = true.
Lemma calm_refl p : calm p p. Proof. intros i f E C. eauto. Qed.
Lemma calm_trans p q r : calm p q -> calm q r -> calm p r. Proof. intros A B i f E C. destruct (B i f E C) as (g & Eg & Cg). eauto. Qed.
Lemma calm_eq p q : p_store p = p_store q -> calm p q. Proof. intros S i f E C. unfold fget in *. rewrite <- S in E. eauto. Qed.
Lemma calm_add p f : f_cyclic f = false -> calm p (st_add p f).
Proof.
  intros F i f' E C. unfold fget, st_add in *. cbn [p_store] in E. destruct (Nat.lt_ge_cases i (List.length (p_store p))) as [L|L]; [rewrite nth_error_app1 in E by exact L; eauto|].
  rewrite nth_error_app2 in E by exact L. destruct (i - List.length (p_store p))%nat as [|[|m]]; cbn in E; try discriminate E. injection E as <-. congruence.
Qed.
Lemma calm_set p i g : (forall f, f_cyclic (g f) = f_cyclic f) -> calm p (st_set p i g).
Proof.
  intros G j f' E C. destruct (Nat.eq_dec i j) as [<-|N]; [|rewrite st_set_other in E by exact N; eauto].
  destruct (fget p i) as [f|] eqn:Ef; [rewrite (st_set_same _ _ _ _ Ef) in E; injection E as <-; exists f; rewrite G in C; auto|].
  exfalso. unfold fget, st_set in *. cbn [p_store] in E. apply nth_error_None in Ef. assert (L : (i < List.length (upd (p_store p) i g))%nat) by (apply nth_error_Some; congruence).
  clear - Ef L. revert i Ef L. induction (p_store p) as [|x l IH]; intros i Ef L; [exact (Nat.nlt_0_r _ L)|]. destruct i; cbn in *; [lia|]. apply (IH i); lia.
Qed.
Section Calm.
  Variables (en : env) (n : nat).
  Lemma cend_calm sc calc i p p' : cend en n sc calc i p = Ok p' -> calm p p'.
  Proof.
    unfold cend. intros H. destruct (fget p i) as [f|]; [|discriminate H]. destruct calc as [e|]; [|apply Ok_inj in H; subst; apply calm_set; reflexivity].
    destruct (into_partial n p (f_type f)); cbn [bind] in H; try discriminate H. destruct (cexpr _ _ _ _ _ _); cbn [bind] in H; try discriminate H. apply Ok_inj in H. subst. apply calm_set. reflexivity.
  Qed.
  Lemma cends_calm sc : forall l p p', cends en n sc l p = Ok p' -> calm p p'.
  Proof. induction l as [|[i c] l IH]; intros p p' H; cbn [cends] in H; [apply Ok_inj in H; subst; apply calm_refl|]. destruct (cend en n sc c i p) as [q| | |] eqn:E; cbn [bind] in H; try discriminate H. eapply calm_trans; [eapply cend_calm; eassumption|apply IH; exact H]. Qed.
  Lemma type_calm : (forall t sc u p t' p', ctype en n sc t u p = Ok (t', p') -> calm p p') /\ (forall f sc u i p p', cmid en n sc f u i p = Ok p' -> calm p p').
  Proof.
    apply (syntax_ind (fun _ => True) (fun t => forall sc u p t' p', ctype en n sc t u p = Ok (t', p') -> calm p p') (fun f => forall sc u i p p', cmid en n sc f u i p = Ok p' -> calm p p')); try (intros; exact Logic.I).
    all: try (intros; match goal with H : ctype _ _ _ _ _ _ = Ok _ |- _ => cbn [ctype] in H; match type of H with bind ?r _ = _ => destruct r end; cbn [bind] in H; try discriminate H; apply Ok_inj in H; injection H as <- <-; apply calm_refl end).
    - intros rep items _ sc u p t' p' H. cbn [ctype] in H. destruct u; try discriminate H. destruct (cenum _ _ _ _ _ _ _ _ _ _); cbn [bind] in H; try discriminate H. apply Ok_inj in H. injection H as <- <-. apply calm_refl.
    - intros rep items _ sc u p t' p' H. cbn [ctype] in H. destruct u; try discriminate H. destruct (cbits _ _ _ _ _ _ _ _ _); cbn [bind] in H; try discriminate H. apply Ok_inj in H. injection H as <- <-. apply calm_refl.
    - intros len flags items _ IH sc u p t' p' H. rewrite ctype_cont in H.
      assert (It : forall tagged s s', citems en n sc tagged items s = Ok s' -> calm (cs_prog s) (cs_prog s')).
      { clear H. intros tagged. induction items as [|it l IHl]; intros s s' H; [apply Ok_inj in H; subst; apply calm_refl|]. inversion IH as [|? ? I1 I2]; subst. destruct it as [e|x f].
        - rewrite citems_pad in H. cbv zeta in H. destruct tagged; [discriminate H|]. destruct (cexpr _ _ _ _ _ _); cbn [bind] in H; try discriminate H. apply IHl in H; [|exact I2]. cbn [cs_prog] in H. eapply calm_trans; [|exact H]. apply calm_add. reflexivity.
        - rewrite citems_field in H. cbv zeta in H. destruct (mget x (cs_items s)); [discriminate H|]. match type of H with bind ?r _ = _ => destruct r as [p1| | |] eqn:E1 end; cbn [bind] in H; try discriminate H.
          destruct (cs_uncond s && tagged); [discriminate H|]. apply IHl in H; [|exact I2]. cbn [cs_prog] in H. eapply calm_trans; [|exact H]. eapply calm_trans; [|eapply I1; exact E1]. apply calm_add. reflexivity. }
      assert (K : (let! len' := copt en n p sc len (PScalar (PDefaults U64)) in let! tagged := cflags flags false in if tagged && negb (match u with ForType _ => true | _ => false end) then Err XToplevel else
        let! s := citems en n sc tagged items {| cs_prog := p; cs_items := []; cs_fields := []; cs_ends := []; cs_uncond := false; cs_pads := 0 |} in
        let! p2 := cends en n (frame0 :: {| fr_fields := cs_fields s; fr_inputs := [] |} :: sc) (cs_ends s) (cs_prog s) in Ok (FCont len' (cs_items s) tagged, p2)) = Ok (t', p')) by (destruct u; solve [exact H|discriminate H]).
      clear H. destruct (copt _ _ _ _ _ _); cbn [bind] in K; try discriminate K. destruct (cflags flags false) as [tagged| | |]; cbn [bind] in K; try discriminate K. destruct (tagged && _); [discriminate K|].
      match type of K with bind ?r _ = _ => destruct r as [s| | |] eqn:E1 end; cbn [bind] in K; try discriminate K. match type of K with bind ?r _ = _ => destruct r as [p2| | |] eqn:E2 end; cbn [bind] in K; try discriminate K.
      apply Ok_inj in K. injection K as <- <-. apply It in E1. cbn [cs_prog] in E1. apply cends_calm in E2. eapply calm_trans; eassumption.
    - intros t calc flags cond xs IH _ _ _ sc u i p p' H. rewrite cmid_eq in H. destruct (ctype en n sc t u p) as [[t' p1]| | |] eqn:E; cbn [bind] in H; try discriminate H.
      destruct (copt _ _ _ _ _ _); cbn [bind] in H; try discriminate H. destruct (cxforms _ _ _ _ _); cbn [bind] in H; try discriminate H. destruct flags; [|discriminate H]. apply Ok_inj in H. subst.
      eapply calm_trans; [eapply IH; exact E|]. apply calm_set. reflexivity.
  Qed.
End Calm.
Section Program.
  Variables (en : env) (n : nat) (rs : resolver).
  Lemma params_calm sc : forall l fr acc p fr' ps p', cparams en n sc l fr acc p = Ok (fr', ps, p') -> calm p p'.
  Proof.
    induction l as [|a l IH]; intros fr acc p fr' ps p' H; cbn [cparams] in H; [apply Ok_inj in H; injection H as <- <- <-; apply calm_refl|].
    destruct (ctype _ _ _ _ _ _) as [[t p1]| | |] eqn:E; cbn [bind] in H; try discriminate H. match type of H with bind ?r _ = _ => destruct r end; cbn [bind] in H; try discriminate H.
    eapply calm_trans; [eapply (proj1 (type_calm en n)); exact E|]. eapply IH. exact H.
  Qed.
  Lemma type_params_calm i args p fr p' : type_params en n i args p = Ok (fr, p') -> calm p p'.
  Proof.
    unfold type_params. intros H. destruct (cparams _ _ _ _ _ _ _) as [[[fr' ps] q]| | |] eqn:E; cbn [bind] in H; try discriminate H. apply Ok_inj in H. injection H as <- <-.
    eapply calm_trans; [eapply params_calm; exact E|]. apply calm_set. reflexivity.
  Qed.
  Lemma type_body_calm fr i x f p p' : type_body en n fr i x f p = Ok p' -> calm p p'.
  Proof.
    unfold type_body. intros H. destruct (cmid _ _ _ _ _ _ _) as [q| | |] eqn:E; cbn [bind] in H; try discriminate H. eapply calm_trans; [eapply (proj2 (type_calm en n)); exact E|]. eapply cend_calm. exact H.
  Qed.
  Lemma type_decl_calm x p i p' : type_decl x p = Ok (i, p') -> calm p p'.
  Proof.
    unfold type_decl. intros H. destruct (mget x (p_types p)); [discriminate H|]. apply Ok_inj in H. injection H as <- <-. eapply calm_trans; [apply (calm_add p (placeholder x true)); reflexivity|]. apply calm_eq. reflexivity.
  Qed.
  Lemma early_calm : forall l p p', early en n l p = Ok p' -> calm p p'.
  Proof.
    induction l as [|d l IH]; intros p p' H; cbn [early] in H; [apply Ok_inj in H; subst; apply calm_refl|]. destruct d as [x args f| | |x t v]; try (apply IH; exact H).
    - destruct (is_def f); [|apply IH; exact H]. destruct (type_decl x p) as [[i p1]| | |] eqn:E1; cbn [bind] in H; try discriminate H. destruct (type_params en n i args p1) as [[fr p2]| | |] eqn:E2; cbn [bind] in H; try discriminate H.
      destruct (type_body en n fr i x f p2) as [p3| | |] eqn:E3; cbn [bind] in H; try discriminate H. eapply calm_trans; [eapply type_decl_calm; exact E1|]. eapply calm_trans; [eapply type_params_calm; exact E2|]. eapply calm_trans; [eapply type_body_calm; exact E3|]. apply IH. exact H.
    - destruct (const_decl en n x t v p) as [p1| | |] eqn:E1; cbn [bind] in H; try discriminate H. eapply calm_trans; [|apply IH; exact H]. clear H. unfold const_decl in E1. destruct (mget x (p_consts p)); [discriminate E1|].
      destruct (ctype _ _ _ _ _ _) as [[t' q]| | |] eqn:E; cbn [bind] in E1; try discriminate E1. eapply calm_trans; [eapply (proj1 (type_calm en n)); exact E|].
      assert (K : (let! xt := into_partial n q t' in let! v' := cexpr en n q scope0 v xt in Ok (with_consts q (mput x {| c_name := x; c_type := t'; c_value := v' |} (p_consts q)))) = Ok p1) by (destruct t'; solve [exact E1|discriminate E1]).
      destruct (into_partial n q t'); cbn [bind] in K; try discriminate K. destruct (cexpr _ _ _ _ _ _); cbn [bind] in K; try discriminate K. apply Ok_inj in K. subst. apply calm_eq. reflexivity.
  Qed.
  Lemma late_names_calm : forall l p q p', late_names l p = Ok (q, p') -> calm p p'.
  Proof.
    induction l as [|d l IH]; intros p q p' H; cbn [late_names] in H; [apply Ok_inj in H; injection H as <- <-; apply calm_refl|]. destruct d as [x args f| | |x t v]; try (eapply IH; exact H).
    destruct (is_def f); [eapply IH; exact H|]. destruct (type_decl x p) as [[i p1]| | |] eqn:E1; cbn [bind] in H; try discriminate H. destruct (late_names l p1) as [[q1 p2]| | |] eqn:E2; cbn [bind] in H; try discriminate H.
    apply Ok_inj in H. injection H as <- <-. eapply calm_trans; [eapply type_decl_calm; exact E1|]. eapply IH. exact E2.
  Qed.
  Lemma late_params_calm : forall l p q p', late_params en n l p = Ok (q, p') -> calm p p'.
  Proof.
    induction l as [|[[[i x] args] f] l IH]; intros p q p' H; cbn [late_params] in H; [apply Ok_inj in H; injection H as <- <-; apply calm_refl|].
    destruct (type_params en n i args p) as [[fr p1]| | |] eqn:E1; cbn [bind] in H; try discriminate H. destruct (late_params en n l p1) as [[q1 p2]| | |] eqn:E2; cbn [bind] in H; try discriminate H.
    apply Ok_inj in H. injection H as <- <-. eapply calm_trans; [eapply type_params_calm; exact E1|]. eapply IH. exact E2.
  Qed.
  Lemma late_bodies_calm : forall l p p', late_bodies en n l p = Ok p' -> calm p p'.
  Proof.
    induction l as [|[[[fr i] x] f] l IH]; intros p p' H; cbn [late_bodies] in H; [apply Ok_inj in H; subst; apply calm_refl|].
    destruct (type_body en n fr i x f p) as [p1| | |] eqn:E1; cbn [bind] in H; try discriminate H. eapply calm_trans; [eapply type_body_calm; exact E1|]. apply IH. exact H.
  Qed.
  Lemma ffi_calm : forall l p p', ffi_decls rs l p = Ok p' -> calm p p'.
  Proof.
    induction l as [|d l IH]; intros p p' H; cbn [ffi_decls] in H; [apply Ok_inj in H; subst; apply calm_refl|]. destruct d as [ | |x k| ]; try (apply IH; exact H).
    destruct (ffi_decl rs x k p) as [p1| | |] eqn:E; cbn [bind] in H; try discriminate H. eapply calm_trans; [|apply IH; exact H]. clear H. unfold ffi_decl in E. destruct k.
    - destruct (r_xform rs x) as [[o|]| | |]; cbn [bind] in E; try discriminate E. destruct (mget x (p_xforms p)); [discriminate E|]. apply Ok_inj in E. subst. apply calm_eq. reflexivity.
    - destruct (r_type rs x) as [[o|]| | |]; cbn [bind] in E; try discriminate E. destruct (mget x (p_types p)); [discriminate E|]. apply Ok_inj in E. subst.
      match goal with |- calm _ (with_types (st_add _ ?f) _) => eapply calm_trans; [apply (calm_add p f); reflexivity|] end. apply calm_eq. reflexivity.
    - destruct (r_func rs x) as [[o|]| | |]; cbn [bind] in E; try discriminate E. destruct (mget x (p_funcs p)); [discriminate E|]. apply Ok_inj in E. subst. apply calm_eq. reflexivity.
  Qed.
  Lemma add_prelude_store : forall l p, p_store (add_prelude l p) = p_store p.
  Proof. induction l as [|[x f] l IH]; intros p; cbn [add_prelude]; [reflexivity|]. rewrite IH. reflexivity. Qed.

  Lemma imported_marks a c st p : from_ast_imported en n rs a c st = Ok p ->
    (forall i f, fget p i = Some f -> f_cyclic f = true -> (exists f0, nth_error st i = Some f0 /\ f_cyclic f0 = true) \/ namesake p i) /\
    (forall x i f, mget x (p_types p) = Some i -> fget p i = Some f -> own_names p i -> reaches p i i -> f_cyclic f = true).
  Proof.
    unfold from_ast_imported. intros H. set (q0 := {| p_store := st |}) in *. set (q1 := add_prelude (r_prelude rs) q0) in *.
    destruct (ffi_decls rs a q1) as [q2| | |] eqn:E2; cbn [bind] in H; try discriminate H. destruct (import_decls rs c a q2) as [q3| | |] eqn:E3; cbn [bind] in H; try discriminate H.
    destruct (early en n a q3) as [q4| | |] eqn:E4; cbn [bind] in H; try discriminate H. destruct (late_names a q4) as [[l q5]| | |] eqn:E5; cbn [bind] in H; try discriminate H.
    destruct (late_params en n l q5) as [[l' q6]| | |] eqn:E6; cbn [bind] in H; try discriminate H. destruct (late_bodies en n l' q6) as [q7| | |] eqn:E7; cbn [bind] in H; try discriminate H.
    assert (K : calm q0 q7).
    { eapply calm_trans; [apply (calm_eq q0 q1); symmetry; apply add_prelude_store|]. eapply calm_trans; [eapply ffi_calm; exact E2|]. apply import_decls_spec in E3 as (M1 & _).
      eapply calm_trans; [apply (calm_eq q2 q3); symmetry; exact M1|]. eapply calm_trans; [eapply early_calm; exact E4|]. eapply calm_trans; [eapply late_names_calm; exact E5|].
      eapply calm_trans; [eapply late_params_calm; exact E6|]. eapply late_bodies_calm; exact E7. }
    pose proof H as H'. apply scan_spec in H' as (T & _ & _). apply scan_marks in H as [A B]. split.
    - intros i f' E' C. destruct (alike_get _ _ _ _ (alike_sym _ _ A) E') as (f & E & _). destruct (B i f f' E E') as (_ & B2 & _). destruct (B2 C) as [C'|[_ (j & g & h & Eg & Eh & R & Nm)]].
      + left. destruct (K i f E C') as (f0 & E0 & C0). exists f0. auto.
      + right. destruct (alike_get _ _ _ _ A Eg) as (g' & Eg' & Ng & _). destruct (alike_get _ _ _ _ A Eh) as (h' & Eh' & Nh & _). exists j, g', h'. repeat split; try assumption; [eapply alike_reaches; eassumption|congruence].
    - intros x i f' M E' O R. destruct (alike_get _ _ _ _ (alike_sym _ _ A) E') as (f & E & _). destruct (B i f f' E E') as (_ & _ & B3). apply B3.
      + destruct T as [T1 _ _ _]. rewrite T1 in M. apply mget_in in M. apply (in_map snd) in M. exact M.
      + eapply alike_own; [apply alike_sym; exact A|exact O].
      + eapply alike_reaches; [apply alike_sym; exact A|exact R].
  Qed.

  Definition as_prog (st : list field) : prog := {| p_store := st; p_types := []; p_consts := []; p_xforms := []; p_funcs := [] |}.
  Definition marked (st : list field) : Prop := forall i f, nth_error st i = Some f -> f_cyclic f = true -> namesake (as_prog st) i.
  Definition keeps_store (st : list field) (p : prog) : Prop := forall i f, nth_error st i = Some f -> exists f', fget p i = Some f' /\ same f f'.
  Lemma namesake_grow st p i : keeps_store st p -> namesake (as_prog st) i -> namesake p i.
  Proof.
    intros K (j & f & g & Ef & Eg & R & Nm). destruct (K _ _ Ef) as (f' & Ef' & (Nf & _) & _). destruct (K _ _ Eg) as (g' & Eg' & (Ng & _) & _).
    exists j, f', g'. split; [exact Ef'|]. split; [exact Eg'|]. split; [|congruence].
    assert (Ed : forall a b, edge (as_prog st) a b -> edge p a b). { intros a b (h & Eh & I). destruct (K _ _ Eh) as (h' & Eh' & (_ & _ & Th & _) & _). exists h'. rewrite Th. auto. }
    clear - R Ed. induction R; [apply reaches_one; auto|eapply reaches_more; eauto].
  Qed.
  Lemma imported_marked a c st p : from_ast_imported en n rs a c st = Ok p -> Forall clean_decl a -> marked st -> marked (p_store p).
  Proof.
    intros H Cl M i f E C. apply (namesake_grow (p_store p) (as_prog (p_store p))); [intros j g Eg; exists g; split; [exact Eg|apply same_refl]|].
    change (namesake (as_prog (p_store p)) i). enough (K : namesake p i).
    { destruct K as (j & g & h & Eg & Eh & R & Nm). exists j, g, h. repeat split; try assumption. clear - R. induction R; [apply reaches_one; assumption|eapply reaches_more; eassumption]. }
    destruct (proj1 (imported_marks _ _ _ _ H) i f E C) as [(f0 & E0 & C0)|K]; [|exact K]. apply (namesake_grow st); [|exact (M _ _ E0 C0)]. apply program_elab in H as (_ & _ & _ & _ & _ & K); [exact K|exact Cl].
  Qed.
  Lemma load_marked : forall k a c st log log' c' st', load en n rs k a c st log = (log', Ok (c', st')) -> (forall x b, reach rs a x -> file rs x b -> Forall clean_decl b) -> marked st -> marked st'.
  Proof.
    induction k as [|k IHk]; [intros; discriminate|]. induction a as [|d a IHa]; intros c st log log' c' st' H Cl M.
    - rewrite load_nil in H. injection H as <- <- <-. exact M.
    - assert (Cla : forall x b, reach rs a x -> file rs x b -> Forall clean_decl b) by (intros x b R; apply Cl, reach_tail, R).
      rewrite load_cons in H. destruct d as [? ? ?|items from|? ?|? ? ?]; try (eapply IHa; eassumption). destruct (r_norm rs from) as [x| | |] eqn:Ex; cbn [bindl] in H; try discriminate H.
      assert (Im : imports rs (DImport items from :: a) x) by (exists items, from; split; [left; reflexivity|exact Ex]).
      destruct (mget x c); [eapply IHa; eassumption|]. destruct (r_load rs x) as [[text|]| | |] eqn:El; cbn [bindl] in H; try discriminate H. destruct (parse text) as [b| | |] eqn:Ep; cbn [parsed bindl] in H; try discriminate H.
      assert (Fx : file rs x b) by (exists text; auto). destruct (load en n rs k b c st (log ++ [x])) as [log1 [[c1 st1]| | |]] eqn:E1; cbn [bindl] in H; try discriminate H.
      destruct (from_ast_imported en n rs b c1 st1) as [q| | |] eqn:Eq; cbn [bindl] in H; try discriminate H.
      assert (M1 : marked st1) by (eapply IHk; [exact E1| |exact M]; intros y b' R; apply Cl; eapply reach_through; eassumption).
      eapply IHa; [exact H|exact Cla|]. eapply imported_marked; [exact Eq| |exact M1]. eapply Cl; [apply reach_direct, Im|exact Fx].
  Qed.
End Program.

(** C27. In an accepted program a type is marked possibly recursive exactly if it can reach itself, provided no two fields or types met from it
    share a name.  Partial: the marking goes by names, so the proviso is needed (C27_names_refuted). *)
Definition all_clean (rs : resolver) (a : aprogram) : Prop := Forall clean_decl a /\ forall x b, reach rs a x -> file rs x b -> Forall clean_decl b.
Lemma recursion en n rs k a p : from_ast en n rs k a = Ok p -> all_clean rs a -> forall x i f, mget x (p_types p) = Some i -> fget p i = Some f -> own_names p i ->
  (f_cyclic f = true <-> reaches p i i).
Proof.
  unfold from_ast. intros H [Ca Cl] x i f Mx Ef O. destruct (load en n rs k a [] [] []) as [log [[c st]| | |]] eqn:L; cbn [snd bind] in H; try discriminate H.
  destruct (imported_marks en n rs a c st p H) as [A B]. split; [|apply (B x); assumption]. intros C.
  assert (M : marked st). { eapply load_marked; [exact L|exact Cl|]. intros j g E. destruct j; discriminate E. }
  assert (K : namesake p i).
  { destruct (A i f Ef C) as [(f0 & E0 & C0)|K]; [|exact K]. apply (namesake_grow st); [|exact (M _ _ E0 C0)]. apply program_elab in H as (_ & _ & _ & _ & _ & K); [exact K|exact Ca]. }
  destruct K as (j & g & h & Eg & Eh & R & Nm). assert (i = j) by (eapply (O i j g h); [left; reflexivity|right; exact R|exact Eg|exact Eh|congruence]). subst j. exact R.
Qed.
Theorem C27_recursion_partial : forall en n rs k a p, from_ast en n rs k a = Ok p -> all_clean rs a -> forall x i f, mget x (p_types p) = Some i -> fget p i = Some f -> own_names p i ->
  (f_cyclic f = true <-> reaches p i i).
Proof. exact recursion. Qed.
Print Assumptions C27_recursion_partial.

(** C27. The detection terminates on every type graph, recursive or not: with enough depth it does not run out. *)
Lemma detection_ends p t : exists N, forall n, (N <= n)%nat -> gather n p t [] <> Hang.
Proof.
  assert (D : exists d, forall i f, fget p i = Some f -> (tdepth (f_type f) <= d)%nat).
  { unfold fget. induction (p_store p) as [|g st [d IH]]; [exists O; intros [|i] f E; discriminate E|]. exists (Nat.max d (tdepth (f_type g))). intros [|i] f E; [injection E as <-; lia|]. specialize (IH i f E). lia. }
  destruct D as [d D]. exists (S (unseen (p_store p) [] * S d + tdepth t)). intros n L. apply (gather_total p d D). lia.
Qed.
Theorem C27_detection_ends : forall p t, exists N, forall n, (N <= n)%nat -> gather n p t [] <> Hang.
Proof. exact detection_ends. Qed.
Print Assumptions C27_detection_ends.

(** C27. Names that clash mislead the marking both ways: [t] is not recursive, yet marked, since its field is called [t]; [a] is recursive (through the
    field [c] and the type [b]), yet not marked, since the type [b] is taken for the field [b]. *)
Definition cyclic_of (r : R prog) (x : name) : option bool :=
  match r with Ok p => match mget x (p_types p) with Some i => option_map f_cyclic (fget p i) | None => None end | _ => None end.
Definition clash_text : list Z := bs "type a = container { b: u8, c: b[1u64] }; type b = container { d: a[1u64] };".
Definition clash : prog := Eval vm_compute in match analyse string_env no_resolver 20 2 clash_text with Ok p => p | _ => as_prog [] end.
Theorem C27_names_refuted :
  (exists p i, analyse string_env no_resolver 20 2 (bs "type t = container { t: u8 };") = Ok p /\ mget (bs "t") (p_types p) = Some i /\ option_map f_cyclic (fget p i) = Some true /\ ~ reaches p i i) /\
  (exists i, analyse string_env no_resolver 20 2 clash_text = Ok clash /\ mget (bs "a") (p_types clash) = Some i /\ option_map f_cyclic (fget clash i) = Some false /\ reaches clash i i).
Proof.
  split.
  - eexists _, _. split; [vm_compute; reflexivity|]. split; [vm_compute; reflexivity|]. split; [reflexivity|]. intros R.
    assert (G : forall p i j, reaches p i j -> (forall k, edge p i k -> forall m, ~ edge p k m) -> edge p i j) by (intros p i j [? ? E|? ? ? E R'] N; [exact E|]; inversion R'; subst; destruct (N _ E _ H)).
    apply G in R. { destruct R as (f & E & I). cbn in E. injection E as <-. cbn in I. destruct I as [I|[]]. discriminate I. }
    intros k (f & E & I) m (g & Eg & I'). cbn in E. injection E as <-. cbn in I. destruct I as [<-|[]]. cbn in Eg. injection Eg as <-. exact I'.
  - exists 0%nat. split; [vm_compute; reflexivity|]. split; [vm_compute; reflexivity|]. split; [vm_compute; reflexivity|].
    assert (E : forall i j f, fget clash i = Some f -> existsb (Nat.eqb j) (mentions (f_type f)) = true -> edge clash i j).
    { intros i j f Ef X. exists f. split; [exact Ef|]. apply existsb_exists in X as (y & I & Y). apply Nat.eqb_eq in Y as ->. exact I. }
    eapply reaches_more; [eapply (E _ 3%nat); reflexivity|]. eapply reaches_more; [eapply (E _ 1%nat); reflexivity|]. eapply reaches_more; [eapply (E _ 4%nat); reflexivity|]. apply reaches_one. eapply E; reflexivity.
Qed.
Print Assumptions C27_names_refuted.

(** A case that meets the hypotheses: a tree, and a type that only holds it. *)
Definition tree_text : list Z := bs "type tree = container { n: u8, kids: tree[n] }; type holder = container { it: tree, pad: u16[3u64] };".
Definition tree : prog := Eval vm_compute in match analyse string_env no_resolver 20 2 tree_text with Ok p => p | _ => as_prog [] end.
Example C27_nonvacuous : analyse string_env no_resolver 20 2 tree_text = Ok tree /\ map f_name (p_store tree) = [bs "tree"; bs "holder"; bs "n"; bs "kids"; bs "it"; bs "pad"] /\
  (forall i, own_names tree i) /\ cyclic_of (Ok tree) (bs "tree") = Some true /\ cyclic_of (Ok tree) (bs "holder") = Some false.
Proof.
  split; [vm_compute; reflexivity|]. split; [vm_compute; reflexivity|]. split; [|split; vm_compute; reflexivity].
  intros i j k g h _ _ Eg Eh N. do 6 (destruct j as [|j]; [cbn in Eg; injection Eg as <-; do 6 (destruct k as [|k]; [cbn in Eh; injection Eh as <-; first [reflexivity|discriminate N]|]); destruct k; discriminate Eh|]). destruct j; discriminate Eg.
Qed.
