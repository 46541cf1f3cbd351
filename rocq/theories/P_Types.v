(** C22, C25, C26: type compatibility and argument checking. *)
From Verif Require Import Base Scalar ScalarFacts ConstInt ConstIntFacts Tokens Ast Parse Front Program FrontFacts TypeFacts.
From Coq Require Import Lia.
Open Scope string_scope. Open Scope Z_scope. Open Scope list_scope.

(** ** C22 *)
(** C22. A type is assignable from itself, for every type built from foreign types that accept themselves (strings do not,
    see below) and with distinct item names; [e_eq] is any reflexive equality of expressions. *)
Theorem C22_reflexive_partial : forall en, (forall e, e_eq en e e = true) -> forall n p t b,
  (forall f, part p t (FForeign f) -> self_assignable en f) -> (forall u, part p t u -> distinct_items u) ->
  assign en n p t t = Ok b -> b = true.
Proof. exact assign_refl. Qed.
Print Assumptions C22_reflexive_partial.

(** C22. The string types of the prelude are not assignable from themselves, so two strings can be neither compared nor passed on. *)
Definition string_env : env := {| e_obj := fun x => if name_eqb x (bs "utf8") then FoArr U8 else FoVar U32; e_eq := fun _ _ => true |}.
Lemma string_not_self en f s p : e_obj en f = FoArr s -> forall n, (2 <= n)%nat -> assign en n p (FForeign f) (FForeign f) = Ok false.
Proof. intros E n L. destruct n as [|[|n]]; try lia. cbn. rewrite E. reflexivity. Qed.
Theorem C22_string_reflexive_refuted : forall en f s p, e_obj en f = FoArr s -> forall n, (2 <= n)%nat -> assign en n p (FForeign f) (FForeign f) = Ok false.
Proof. exact string_not_self. Qed.
Print Assumptions C22_string_reflexive_refuted.

(** C22. What can be assigned can also be cast explicitly. *)
Lemma assign_cast en n p t u : assign en n p u t = Ok true -> castable en n p t u = Ok true.
Proof. intros H. unfold castable. rewrite H. reflexivity. Qed.
Theorem C22_assignable_castable : forall en n p t u, assign en n p u t = Ok true -> castable en n p t u = Ok true.
Proof. exact assign_cast. Qed.
Print Assumptions C22_assignable_castable.

(** C22. But what is converted implicitly cannot always be cast explicitly: an enum over u8 becomes a u32 by itself, and "e :> u32" is rejected. *)
Lemma coerce_not_cast en n p x items : (1 <= n)%nat ->
  coerce n p (FEnum x (be U8) items) (FScalar (be U32)) = Ok true /\ castable en n p (FEnum x (be U8) items) (FScalar (be U32)) = Ok false.
Proof. intros L. destruct n as [|n]; [lia|]. split; [reflexivity|]. unfold castable. cbn. rewrite !resolved_id by congruence. reflexivity. Qed.
Theorem C22_coercible_castable_refuted : forall en n p x items, (1 <= n)%nat ->
  coerce n p (FEnum x (be U8) items) (FScalar (be U32)) = Ok true /\ castable en n p (FEnum x (be U8) items) (FScalar (be U32)) = Ok false.
Proof. exact coerce_not_cast. Qed.
Print Assumptions C22_coercible_castable_refuted.

(** C22. Implicit conversion of integers is a partial order within one signedness, and follows the ranges of values. *)
Lemma widen : (forall s, can_implicit_cast_to s s = true) /\
  (forall a b c, can_implicit_cast_to a b = true -> can_implicit_cast_to b c = true -> can_implicit_cast_to a c = true) /\
  (forall a b, can_implicit_cast_to a b = true -> can_implicit_cast_to b a = true -> a = b) /\
  (forall a b, can_implicit_cast_to a b = true -> is_signed a = is_signed b) /\
  (forall a b, can_implicit_cast_to a b = true <-> is_signed a = is_signed b /\ forall z, in_range a z = true -> in_range b z = true).
Proof.
  split; [intros []; reflexivity|]. split; [intros [] [] []; cbn; congruence|]. split; [intros [] []; cbn; congruence|]. split; [intros [] []; cbn; congruence|].
  intros a b. split.
  - intros H. split; [revert H; destruct a, b; cbn; congruence|]. intros z I. apply in_range_iff in I. apply in_range_iff. destruct a, b; cbn in H; try discriminate H; unfold min_of, max_of in *; cbn in *; lia.
  - intros [S I]. pose proof (I (max_of a)) as J. rewrite !in_range_iff in J. destruct a, b; cbn in S; try discriminate S; try reflexivity; unfold min_of, max_of in J; cbn in J; lia.
Qed.
Theorem C22_widening_order : (forall s, can_implicit_cast_to s s = true) /\
  (forall a b c, can_implicit_cast_to a b = true -> can_implicit_cast_to b c = true -> can_implicit_cast_to a c = true) /\
  (forall a b, can_implicit_cast_to a b = true -> can_implicit_cast_to b a = true -> a = b) /\
  (forall a b, can_implicit_cast_to a b = true -> is_signed a = is_signed b) /\
  (forall a b, can_implicit_cast_to a b = true <-> is_signed a = is_signed b /\ forall z, in_range a z = true -> in_range b z = true).
Proof. exact widen. Qed.
Print Assumptions C22_widening_order.

(** C22. Between the basic types, assignment widens: each is assignable from itself only, but a f64 also from a f32. *)
Definition basic (t : fty) : Prop := match t with FScalar _ | FF32 | FF64 | FBool => True | _ => False end.
Lemma assign_basic en n p t u : basic t -> basic u -> (0 < n)%nat -> (assign en n p t u = Ok true <-> t = u \/ (t = FF64 /\ u = FF32)).
Proof.
  intros Ht Hu L. destruct n as [|n]; [lia|]. destruct t as [s| | | | | | | | |]; try destruct Ht; destruct u as [s'| | | | | | | | |]; try destruct Hu; cbn; rewrite !resolved_id by congruence; cbn;
    (split; [intros H; first [discriminate|idtac]|intros [H|[H H']]; first [discriminate|idtac]]); auto.
  - apply Ok_inj in H. left. f_equal. destruct s as [s e], s' as [s' e']. unfold escalar_eqb in H. cbn in H. apply andb_true_iff in H as (H1 & H2). apply scalar_eqb_eq in H1. subst. f_equal. destruct e, e'; try discriminate; reflexivity.
  - injection H as ->. destruct s' as [s' e']. unfold escalar_eqb. cbn. rewrite scalar_eqb_refl. destruct e'; reflexivity.
Qed.
Theorem C22_assignment_widens : forall en n p t u, basic t -> basic u -> (0 < n)%nat -> (assign en n p t u = Ok true <-> t = u \/ (t = FF64 /\ u = FF32)).
Proof. exact assign_basic. Qed.
Print Assumptions C22_assignment_widens.

(** C22. An implicit conversion keeps every value: it goes between integers, or between an integer and an enum's or bitfield's representation, of the same signedness, and the target has all values of the source. *)
Definition held (t : fty) : option scalar := match t with FScalar s => Some (es_scalar s) | FEnum _ r _ | FBits _ r _ => Some (es_scalar r) | _ => None end.
Definition is_scalar (t : fty) : bool := match t with FScalar _ => true | _ => false end.
Lemma coerce_keeps n p t u a b : Front.resolved n p t = Ok a -> Front.resolved n p u = Ok b ->
  (coerce n p t u = Ok true <-> is_scalar a || is_scalar b = true /\ exists s s', held a = Some s /\ held b = Some s' /\ is_signed s = is_signed s' /\ forall z, in_range s z = true -> in_range s' z = true).
Proof.
  intros Ea Eb. unfold coerce. rewrite Ea, Eb. cbn [bind]. pose proof (proj2 (proj2 (proj2 (proj2 widen)))) as W.
  split.
  - intros H. apply Ok_inj in H. destruct a; try discriminate; destruct b; try discriminate; (split; [reflexivity|]); eexists; eexists; (split; [reflexivity|]); (split; [reflexivity|]); apply W; exact H.
  - intros (Hs & s & s' & H1 & H2 & H). f_equal. destruct a; try discriminate H1; destruct b; try discriminate H2; try discriminate Hs; cbn in H1, H2; injection H1 as <-; injection H2 as <-; apply W; exact H.
Qed.
Theorem C22_conversion_keeps_values : forall n p t u a b, Front.resolved n p t = Ok a -> Front.resolved n p u = Ok b ->
  (coerce n p t u = Ok true <-> is_scalar a || is_scalar b = true /\ exists s s', held a = Some s /\ held b = Some s' /\ is_signed s = is_signed s' /\ forall z, in_range s z = true -> in_range s' z = true).
Proof. exact coerce_keeps. Qed.
Print Assumptions C22_conversion_keeps_values.

(** C22. An expression is accepted where its own type is expected: its type is assignable to the partial type inferred from it,
    or (a little-endian integer) convertible to it.  Holds unless the type is an array of little-endian integers. *)
Definition no_little_elem (p : prog) (u : fty) : Prop :=
  forall el ex len k s, u = FArr el ex len -> resolved k p el = Ok (FScalar s) -> es_endian s = Big.
Lemma passign_eq en m p x t : passign en m p x t = (let! a := resolved m p t in passign en m p x a).
Proof.
  destruct (resolved m p t) as [a| | |] eqn:E; cbn [bind]; destruct x; cbn [passign]; rewrite E; cbn [bind]; try reflexivity; rewrite (resolved_idem _ _ _ _ _ E); reflexivity.
Qed.
Lemma resolved_step p m i args f a : fget p i = Some f -> resolved m p (FRef i args) = Ok a -> resolved m p (f_type f) = Ok a.
Proof. intros E H. destruct m as [|m]; cbn in H; [discriminate H|]. rewrite E in H. eapply resolved_mono; [|exact H]. lia. Qed.
Lemma infer_accepts en : (forall e, e_eq en e e = true) -> forall n m p t x b,
  (forall f, part p t (FForeign f) -> self_assignable en f) -> (forall u, part p t u -> distinct_items u /\ no_little_elem p u) ->
  into_partial n p t = Ok x -> passign en m p x t = Ok b ->
  b = true \/ (exists s, resolved m p t = Ok (FScalar s) /\ es_endian s = Little /\ pcoerce m p x t = Ok true).
Proof.
  intros Req. induction n as [|n IH]; intros m p t x b Fo D I P; [discriminate I|]. destruct t; cbn [into_partial] in I.
  - apply Ok_inj in I. subst x. cbn [passign] in P. rewrite resolved_id in P by congruence. cbn [bind] in P. apply assign_scalar in P. subst b.
    destruct e as [s []]; [left; unfold escalar_eqb; cbn; rewrite scalar_eqb_refl; reflexivity|]. right. exists {| es_scalar := s; es_endian := Little |}. split; [apply resolved_id; congruence|]. split; [reflexivity|].
    unfold pcoerce. rewrite resolved_id by congruence. cbn [bind]. unfold coerce. rewrite !resolved_id by congruence. cbn. destruct s; reflexivity.
  - apply Ok_inj in I. subst x. left. cbn [passign] in P. rewrite resolved_id in P by congruence. cbn [bind] in P. eapply assign_refl in P; eauto. intros u U. apply D. exact U.
  - apply Ok_inj in I. subst x. left. cbn [passign] in P. rewrite resolved_id in P by congruence. cbn [bind] in P. eapply assign_refl in P; eauto. intros u U. apply D. exact U.
  - apply Ok_inj in I. subst x. left. cbn [passign] in P. rewrite resolved_id in P by congruence. cbn [bind] in P. eapply assign_refl in P; eauto. intros u U. apply D. exact U.
  - apply Ok_inj in I. subst x. left. cbn [passign] in P. rewrite resolved_id in P by congruence. cbn [bind] in P. eapply assign_refl in P; eauto. intros u U. apply D. exact U.
  - apply Ok_inj in I. subst x. left. cbn [passign] in P. rewrite resolved_id in P by congruence. cbn [bind] in P. eapply assign_refl in P; eauto. intros u U. apply D. exact U.
  - apply Ok_inj in I. subst x. left. cbn [passign] in P. rewrite resolved_id in P by congruence. cbn [bind obj_to_partial] in P.
    specialize (Fo _ (part_self _ _)). unfold self_assignable in Fo. destruct (e_obj en n0) as [s|s|fr to] eqn:Eo; [|destruct Fo|cbn in P; apply Ok_inj in P; congruence].
    cbn in P. destruct m as [|m]; [discriminate P|]. cbn [assign] in P. rewrite !resolved_id in P by congruence. cbn [bind] in P. rewrite Eo in P. apply assign_scalar in P. subst. apply escalar_eqb_refl.
  - destruct (fget p target) as [f|] eqn:Ef; [|discriminate I]. pose proof P as P'. rewrite passign_eq in P'. destruct (resolved m p (FRef target args)) as [a| | |] eqn:Er; cbn [bind] in P'; try discriminate P'.
    pose proof (resolved_step _ _ _ _ _ _ Ef Er) as Er'. assert (P2 : passign en m p x (f_type f) = Ok b) by (rewrite passign_eq, Er'; exact P').
    destruct (IH m p (f_type f) x b) as [H|(s & H1 & H2 & H3)]; [intros g G; apply Fo; eapply part_ref; eassumption|intros u U; apply D; eapply part_ref; eassumption|exact I|exact P2|left; exact H|].
    right. exists s. rewrite Er' in H1. split; [rewrite <- H1; reflexivity|]. split; [exact H2|]. unfold pcoerce in *. rewrite Er. rewrite Er' in H3. exact H3.
  - destruct (into_partial n p t) as [xe| | |] eqn:Ie; cbn [bind] in I; try discriminate I. apply Ok_inj in I. subst x. left. cbn [passign] in P. rewrite resolved_id in P by congruence. cbn [bind] in P.
    destruct (IH m p t xe b) as [H|(s & H1 & H2 & H3)]; [intros g G; apply Fo; apply part_elem; assumption|intros u U; apply D; apply part_elem; assumption|exact Ie|exact P|exact H|].
    destruct (D _ (part_self _ _)) as [_ NL]. specialize (NL _ _ _ _ _ eq_refl H1). congruence.
  - apply Ok_inj in I. subst x. left. cbn [passign] in P. rewrite resolved_id in P by congruence. cbn [bind] in P. eapply assign_refl in P; eauto. intros u U. apply D. exact U.
Qed.
Theorem C22_inferred_accepts_partial : forall en, (forall e, e_eq en e e = true) -> forall n m p t x b,
  (forall f, part p t (FForeign f) -> self_assignable en f) -> (forall u, part p t u -> distinct_items u /\ no_little_elem p u) ->
  into_partial n p t = Ok x -> passign en m p x t = Ok b ->
  b = true \/ (exists s, resolved m p t = Ok (FScalar s) /\ es_endian s = Little /\ pcoerce m p x t = Ok true).
Proof. exact infer_accepts. Qed.
Print Assumptions C22_inferred_accepts_partial.
(** C22. An array of little-endian integers is not accepted where the same type is expected. *)
Lemma assign_scalars en n p s s' : (0 < n)%nat -> assign en n p (FScalar s) (FScalar s') = Ok (escalar_eqb s' s).
Proof. intros L. destruct n as [|n]; [lia|]. cbn [assign]. rewrite !resolved_id by congruence. reflexivity. Qed.
Lemma little_array en n p s ex len : (3 <= n)%nat -> let t := FArr (FScalar {| es_scalar := s; es_endian := Little |}) ex len in
  exists x, into_partial n p t = Ok x /\ passign en n p x t = Ok false /\ pcoerce n p x t = Ok false.
Proof.
  intros L. destruct n as [|[|[|n]]]; try lia. eexists. split; [reflexivity|]. cbn [passign resolved bind].
  split; [|reflexivity]. rewrite assign_scalars by lia. unfold escalar_eqb. cbn [es_endian be endian_eqb]. rewrite andb_false_r. reflexivity.
Qed.
Theorem C22_little_array_refuted : forall en n p s ex len, (3 <= n)%nat -> let t := FArr (FScalar {| es_scalar := s; es_endian := Little |}) ex len in
  exists x, into_partial n p t = Ok x /\ passign en n p x t = Ok false /\ pcoerce n p x t = Ok false.
Proof. exact little_array. Qed.
Print Assumptions C22_little_array_refuted.

(** C22. Comparing a recursive type with itself never ends: the depth needed exceeds every bound. *)
Definition rec_text : list Z := bs "type a = container { n: u8, x: a { n == 1 } };".
Definition no_resolver : resolver := {| r_prelude := []; r_type := fun _ => Ok None; r_xform := fun _ => Ok None; r_func := fun _ => Ok None; r_norm := fun x => Ok x; r_load := fun _ => Ok None |}.
Definition analyse (en : env) (rs : resolver) (n k : nat) (text : list Z) : R prog :=
  match parse text with Ok a => from_ast en n rs k a | Err e => Err (XImportParse e) | Panic => Panic | Hang => Hang end.
Definition rec_prog : prog := Eval vm_compute in match analyse string_env no_resolver 10 2 rec_text with Ok p => p | _ => {| p_store := []; p_types := []; p_consts := []; p_xforms := []; p_funcs := [] |} end.
Lemma rec_hang en n : (forall e, e_eq en e e = true) -> assign en n rec_prog (FRef 0 []) (FRef 0 []) = Hang.
Proof.
  intros Q. induction n as [|n IH]; [reflexivity|]. cbn [assign]. destruct n as [|n]; [reflexivity|]. cbn [resolved fget rec_prog p_store nth_error f_type].
  rewrite resolved_id by congruence. cbn [bind opt_eqb andb Nat.eqb List.length allR fst snd mget name_eqb Z.eqb Pos.eqb fget rec_prog p_store nth_error f_name f_type].
  rewrite IH. destruct n as [|n]; reflexivity.
Qed.
Theorem C22_recursive_comparison_refuted : analyse string_env no_resolver 10 2 rec_text = Ok rec_prog /\
  forall en n, (forall e, e_eq en e e = true) -> assign en n rec_prog (FRef 0 []) (FRef 0 []) = Hang.
Proof. split; [vm_compute; reflexivity|exact rec_hang]. Qed.
Print Assumptions C22_recursive_comparison_refuted.

(** A case that meets the hypotheses: an array of a container with a number, a reference to an integer and a varint. *)
Definition ex_prog : prog := Eval vm_compute in
  match analyse string_env {| r_prelude := []; r_type := fun _ => Ok (Some []); r_xform := fun _ => Ok None; r_func := fun _ => Ok None; r_norm := fun x => Ok x; r_load := fun _ => Ok None |} 10 2
    (bs "import_ffi v32 as type; type m = u16; type c = container { a: u8, b: m, c: v32, d: u16le }; type t = c[3];") with Ok p => p | _ => rec_prog end.
Definition ex_type : fty := match fget ex_prog 3 with Some f => f_type f | None => FBool end.
(** All parts of a type, when the depth [n] suffices. *)
Fixpoint parts (n : nat) (p : prog) (t : fty) : option (list fty) :=
  match n with
  | O => None
  | S n =>
      let enter i := match fget p i with Some f => parts n p (f_type f) | None => Some [] end in
      let r := match t with
               | FRef i _ => enter i
               | FArr el _ _ => parts n p el
               | FCont _ items _ => fold_right (fun (x : name * nat) r => match enter (snd x), r with Some a, Some b => Some (a ++ b) | _, _ => None end) (Some []) items
               | _ => Some []
               end in
      option_map (cons t) r
  end.
Lemma parts_all p n : forall t l u, parts n p t = Some l -> part p t u -> In u l.
Proof.
  induction n as [|n IH]; intros t l u H Q; [discriminate|]. cbn [parts] in H.
  destruct Q as [t|i args f u E Q|el ex len u Q|len items tagged x i f u I E Q].
  - match type of H with option_map _ ?r = _ => destruct r end; [|discriminate]. injection H as <-. left. reflexivity.
  - rewrite E in H. destruct (parts n p (f_type f)) as [r|] eqn:P; [|discriminate]. injection H as <-. right. eapply IH; eassumption.
  - destruct (parts n p el) as [r|] eqn:P; [|discriminate]. injection H as <-. right. eapply IH; eassumption.
  - match type of H with option_map _ ?rr = _ => destruct rr as [r|] eqn:P end; [|discriminate]. injection H as <-. right. clear - P I E Q IH.
    revert r P. induction items as [|[y j] items IHi]; intros r P; [destruct I|]. cbn [fold_right snd] in P.
    destruct (match fget p j with Some f => parts n p (f_type f) | None => Some [] end) as [a|] eqn:A; [|discriminate].
    match type of P with match ?rr with _ => _ end = _ => destruct rr as [b|] eqn:B end; [|discriminate]. injection P as <-. apply in_or_app.
    destruct I as [I|I]; [left|right; eapply IHi; [exact I|reflexivity]]. injection I as -> ->. rewrite E in A. eapply IH; eassumption.
Qed.
Example C22_nonvacuous : (forall f, part ex_prog ex_type (FForeign f) -> self_assignable string_env f) /\
  (forall u, part ex_prog ex_type u -> distinct_items u /\ no_little_elem ex_prog u) /\
  part ex_prog ex_type (FForeign (bs "v32")) /\ assign string_env 9 ex_prog ex_type ex_type = Ok true /\
  into_partial 9 ex_prog ex_type <> Hang.
Proof.
  assert (All : exists l, parts 8 ex_prog ex_type = Some l) by (eexists; vm_compute; reflexivity). destruct All as [l All].
  pose proof (parts_all ex_prog 8 ex_type l) as Q. specialize (fun u => Q u All). vm_compute in All. injection All as <-.
  split; [|split; [|split; [|split; [vm_compute; reflexivity|vm_compute; discriminate]]]].
  - intros f H. apply Q in H. cbn in H. repeat (destruct H as [H|H]; [try discriminate H; injection H as <-; vm_compute; exact I|]). destruct H.
  - intros u H. apply Q in H. cbn in H. repeat (destruct H as [H|H]; [subst u; (split; [cbn; repeat constructor; cbn; intuition discriminate|])|]); [..|destruct H];
      intros el ex len k s' E' R; try discriminate E'.
    injection E' as <- <- <-. destruct k as [|k]; [discriminate R|]. cbn in R. destruct k; discriminate R.
  - eapply part_elem. eapply part_ref; [reflexivity|]. eapply part_field; [right; right; left; reflexivity|reflexivity|]. eapply part_ref; [reflexivity|]. apply part_self.
Qed.
