(** Facts about type compatibility (C22). *)
From Verif Require Import Base Scalar ConstInt ConstIntFacts Tokens Ast Parse Front Program FrontFacts.
From Coq Require Import Lia.
Open Scope list_scope.

(** The types a type is made of: itself, what it refers to, array elements and container fields. *)
Inductive part (p : prog) : fty -> fty -> Prop :=
| part_self t : part p t t
| part_ref i args f u : fget p i = Some f -> part p (f_type f) u -> part p (FRef i args) u
| part_elem el ex len u : part p el u -> part p (FArr el ex len) u
| part_field len items tagged x i f u : In (x, i) items -> fget p i = Some f -> part p (f_type f) u -> part p (FCont len items tagged) u.

(** A foreign type that says it is assignable to itself. *)
Definition self_assignable (en : env) (f : name) : Prop :=
  match e_obj en f with FoVar _ => True | FoArr _ => False | FoUser _ to => to (FForeign f) = true end.
(** Item names are distinct. *)
Definition distinct_items (t : fty) : Prop :=
  match t with
  | FCont _ items _ => NoDup (map fst items)
  | FEnum _ _ items => NoDup (map fst items)
  | FBits _ _ items => NoDup (map fst items)
  | _ => True
  end.

Lemma part_trans p t u v : part p t u -> part p u v -> part p t v.
Proof. induction 1; intros Q; eauto using part. Qed.
Lemma resolved_part p n : forall t a, resolved n p t = Ok a -> part p t a /\ forall i args, a <> FRef i args.
Proof.
  induction n as [|n IH]; intros t a H; destruct t; cbn in H; try (apply Ok_inj in H; subst; split; [constructor|congruence]); [discriminate|].
  destruct (fget p target) as [f|] eqn:E; [|discriminate]. apply IH in H as [H1 H2]. split; [|exact H2]. eapply part_ref; eassumption.
Qed.
Lemma resolved_id p n t : (forall i args, t <> FRef i args) -> resolved n p t = Ok t.
Proof. intros N. destruct t, n; cbn; try reflexivity; exfalso; eapply N; reflexivity. Qed.
Lemma resolved_idem p n m t a : resolved n p t = Ok a -> resolved m p a = Ok a.
Proof. intros H. apply resolved_part in H as [_ H]. apply resolved_id. exact H. Qed.
Lemma resolved_mono p n : forall m t a, (n <= m)%nat -> resolved n p t = Ok a -> resolved m p t = Ok a.
Proof.
  induction n as [|n IH]; intros m t a L H.
  - destruct t; cbn in H; try discriminate; apply Ok_inj in H; subst; apply resolved_id; congruence.
  - destruct m as [|m]; [lia|]. destruct t; cbn in H |- *; try exact H. destruct (fget p target); [|discriminate]. apply IH; [lia|exact H].
Qed.

Lemma map_eqb_refl {A} (eq : A -> A -> bool) (m : list (name * A)) : (forall x, eq x x = true) -> NoDup (map fst m) -> map_eqb eq m m = true.
Proof.
  intros R ND. unfold map_eqb. rewrite Nat.eqb_refl. cbn. apply forallb_forall. intros [k v] I. cbn. rewrite (in_mget k v m ND I). apply R.
Qed.
Lemma allR_true {A} (f : A -> R bool) l b : (forall x c, In x l -> f x = Ok c -> c = true) -> allR f l = Ok b -> b = true.
Proof.
  intros F. induction l as [|x l IH]; cbn; intros H; [apply Ok_inj in H; auto|].
  destruct (f x) eqn:E; cbn in H; try discriminate. assert (a = true) by (apply (F x); [left; reflexivity|exact E]). subst. apply IH; [|exact H]. intros y c I. apply F. right. exact I.
Qed.

Lemma assign_scalar en n p s s' b : assign en n p (FScalar s) (FScalar s') = Ok b -> b = escalar_eqb s' s.
Proof. destruct n as [|n]; cbn; [discriminate|]. rewrite !resolved_id by congruence. cbn. intros H. apply Ok_inj in H. congruence. Qed.

Lemma assign_refl en : (forall e, e_eq en e e = true) -> forall n p t b,
  (forall f, part p t (FForeign f) -> self_assignable en f) -> (forall u, part p t u -> distinct_items u) ->
  assign en n p t t = Ok b -> b = true.
Proof.
  intros Req. assert (Ro : forall o, opt_eqb en o o = true) by (intros [e|]; cbn; [apply Req|reflexivity]).
  induction n as [|n IH]; intros p t b Fo D H; [discriminate|]. cbn [assign] in H.
  destruct (resolved n p t) as [a| | |] eqn:Ea; cbn [bind] in H; try discriminate. pose proof (resolved_part _ _ _ _ Ea) as [Pa Na].
  destruct a; cbn [bind] in H.
  - apply Ok_inj in H. subst. apply escalar_eqb_refl.
  - apply Ok_inj in H. auto.
  - apply Ok_inj in H. auto.
  - apply Ok_inj in H. auto.
  - apply Ok_inj in H. subst. rewrite name_eqb_refl, escalar_eqb_refl. cbn. apply map_eqb_refl; [exact Ro|apply (D _ Pa)].
  - apply Ok_inj in H. subst. rewrite name_eqb_refl, escalar_eqb_refl. cbn. apply map_eqb_refl; [exact Req|apply (D _ Pa)].
  - specialize (Fo _ Pa). unfold self_assignable in Fo. destruct (e_obj en n0) as [s|s|fr to] eqn:Eo; [|destruct Fo|apply Ok_inj in H; congruence].
    destruct n as [|n]; [discriminate|]. cbn [assign] in H. rewrite !resolved_id in H by congruence. cbn [bind] in H. rewrite Eo in H.
    apply assign_scalar in H. subst. apply escalar_eqb_refl.
  - exfalso. eapply Na. reflexivity.
  - destruct (assign en n p a a) as [r| | |] eqn:Er; cbn [bind] in H; try discriminate. apply Ok_inj in H. subst.
    rewrite (IH p a r); [|intros f Pf; apply Fo; eapply part_trans; [exact Pa|apply part_elem; exact Pf]|intros u Pu; apply D; eapply part_trans; [exact Pa|apply part_elem; exact Pu]|exact Er].
    rewrite Ro. destruct expandable; reflexivity.
  - rewrite Ro, Nat.eqb_refl in H. cbn [andb] in H.
    match type of H with bind (allR ?F items) _ = _ => destruct (allR F items) as [r| | |] eqn:Er; cbn [bind] in H; try discriminate end.
    apply Ok_inj in H. subst. assert (r = true); [|subst; destruct tagged; reflexivity]. eapply allR_true; [|exact Er].
    intros [x i] c I Hc. cbn [fst snd] in Hc. pose proof (D _ Pa) as ND. cbn in ND. rewrite (in_mget x i items ND I) in Hc.
    destruct (fget p i) as [f|] eqn:Ef; [|discriminate]. rewrite name_eqb_refl in Hc.
    eapply IH; [| |exact Hc]; intros u Pu; [apply Fo|apply D]; eapply part_trans; try exact Pa; eapply part_field; eassumption.
Qed.

(** Comparing types stops as soon as the depth suffices, and then more depth changes nothing. *)
Definition le_res {A} (r r' : R A) : Prop := r = Hang \/ r' = r.
Lemma assign_mono en p n : forall m t u, (n <= m)%nat -> le_res (assign en n p t u) (assign en m p t u).
Proof.
  assert (RM : forall n m t, (n <= m)%nat -> le_res (resolved n p t) (resolved m p t)).
  { clear. intros n. induction n as [|n IH]; intros m t L.
    - destruct t; try (right; destruct m; reflexivity). left. reflexivity.
    - destruct m as [|m]; [lia|]. destruct t; try (right; reflexivity). cbn. destruct (fget p target); [apply IH; lia|right; reflexivity]. }
  induction n as [|n IH]; intros m t u L; [left; reflexivity|]. destruct m as [|m]; [lia|]. cbn [assign].
  assert (IH' : forall t u, le_res (assign en n p t u) (assign en m p t u)) by (intros; apply IH; lia).
  destruct (RM n m t ltac:(lia)) as [-> | ->]; [left; reflexivity|]. destruct (resolved n p t) as [a| | |]; cbn [bind]; try (right; reflexivity).
  destruct (RM n m u ltac:(lia)) as [-> | ->]; [left; reflexivity|]. destruct (resolved n p u) as [b| | |]; cbn [bind]; try (right; reflexivity).
  assert (AL : forall A (f g : A -> R bool) l, (forall x, le_res (f x) (g x)) -> le_res (allR f l) (allR g l)).
  { clear. intros A f g l F. induction l as [|x l I]; [right; reflexivity|]. cbn. destruct (F x) as [-> | ->]; [left; reflexivity|]. destruct (f x) as [[]| | |]; cbn; try (right; reflexivity). exact I. }
  destruct a, b; try (right; reflexivity);
    repeat match goal with |- context [match e_obj en ?f with _ => _ end] => destruct (e_obj en f) end; try (right; reflexivity); try apply IH'.
  - destruct (IH' a b) as [-> | ->]; [left; reflexivity|right; reflexivity].
  - destruct (opt_eqb en len len0 && _); [|right; reflexivity].
    match goal with |- le_res (bind (allR ?f _) _) (bind (allR ?g _) _) => destruct (AL _ f g items) as [-> | ->] end; [|left; reflexivity|right; reflexivity].
    intros [x i]. cbn [fst snd]. destruct (mget x items0) as [j|]; [|right; reflexivity]. destruct (fget p i) as [f1|], (fget p j) as [f2|]; try (right; reflexivity). destruct (name_eqb (f_name f1) (f_name f2)); [apply IH'|right; reflexivity].
Qed.
