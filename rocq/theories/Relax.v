(** What the checked writer accepts, the unchecked writer writes identically; and more
    fuel does not change a result. *)
From Coq Require Import ZArith List String Lia.
From Verif Require Export ScalarFacts DecRef EncRef RtWf EnumBitsFacts RoundTrip.
Import ListNotations.
Open Scope string_scope. Open Scope Z_scope. Open Scope list_scope.

Definition below {E A} (x y : res E A) : Prop := forall r, x = Ok r -> y = Ok r.
Lemma below_refl {E A} (x : res E A) : below x x. Proof. intros r H. exact H. Qed.
Lemma below_bind {E A B} (x y : res E A) (f h : A -> res E B) : below x y -> (forall a, below (f a) (h a)) -> below (bind x f) (bind y h).
Proof. intros H1 H2 r H. apply bind_ok in H as (a & Ea & H). rewrite (H1 _ Ea). cbn [bind]. apply H2. assumption. Qed.
Lemma below_refuse {A} m ok ok' (x y : res ioerr A) : below x y -> below (refuse m ok x) (refuse None ok' y).
Proof. intros H r Hr. unfold refuse in *. destruct m; [destruct ok; [auto|discriminate]|auto]. Qed.
Lemma below_refuse' {A} m ok (x y : res ioerr A) : below x y -> below (refuse m ok x) (refuse m ok y).
Proof. intros H r Hr. unfold refuse in *. destruct m; [destruct ok; [auto|discriminate]|auto]. Qed.
Lemma below_mapM {E A B} (f h : A -> res E B) l : (forall a, below (f a) (h a)) -> below (mapM f l) (mapM h l).
Proof.
  intros H. induction l as [|x l IH]; cbn [mapM]; [apply below_refl|]. apply below_bind; [apply H|]. intros y. apply below_bind; [exact IH|]. intros ys. apply below_refl.
Qed.
Lemma below_times f h : (forall a, below (f a) (h a)) -> forall n vs, below (se_times f n vs) (se_times h n vs).
Proof.
  intros H. induction n as [|n IH]; intros vs; cbn [se_times]; [apply below_refl|]. destruct vs as [|v vs]; [apply below_refl|].
  apply below_bind; [apply H|]. intros x. apply below_bind; [apply IH|]. intros xs. apply below_refl.
Qed.

Section Relax.
  Variable w : world.
  Variable p : program.
  Variable rf : nat.
  Variable inputs : string -> option val.
  Variable m1 m2 : option good.
  Hypothesis Hm : m2 = None \/ m1 = m2.
  Variable e1 e2 : string -> list val -> val -> res ioerr (list Z * val).
  Hypothesis He : forall n vs v, below (e1 n vs v) (e2 n vs v).

  Ltac bl := first [ apply below_refl
                   | apply below_refuse'
                   | apply below_refuse
                   | match goal with |- below (refuse _ _ _) _ => destruct Hm as [->| <-] end
                   | apply below_bind; [|intros ?] ].

  Lemma relax_arr f h en el lc v : (forall a, below (f a) (h a)) -> below (se_arr w p rf inputs m1 f en el lc v) (se_arr w p rf inputs m2 h en el lc v).
  Proof.
    intros H. unfold se_arr. destruct lc as [e| |e]; try destruct (kind_of _) as [pr|d|]; try destruct pr; repeat first [bl | apply below_mapM; exact H | apply below_times; exact H | destruct (_ =? _)].
  Qed.
  Lemma relax_type en t v : below (se_type w p rf inputs m1 e1 en t v) (se_type w p rf inputs m2 e2 en t v).
  Proof.
    revert v. induction t using ty_ind'; intros v; cbn [se_type]; unfold se_prim, se_repr, se_foreign; repeat bl.
    - destruct (p n) as [[? t ?]|]; [destruct t|]; try apply He. unfold se_foreign. repeat bl.
    - apply relax_arr. assumption.
  Qed.
  Lemma relax_xs {A} en xs (k k' : res ioerr (list Z * A)) : below k k' -> below (se_xs w inputs m1 en xs k) (se_xs w inputs m2 en xs k').
  Proof.
    intros H. induction xs as [|x xs IH]; cbn [se_xs]; [assumption|]. bl; [apply below_refl|]. destruct a; [|assumption]. bl; [apply below_refl|]. bl; [exact IH|]. destruct a0. repeat bl.
  Qed.
  Definition irel (f h : seitem) : Prop := fst f = fst h /\ forall en v c pd, below (snd f en v c pd) (snd h en v c pd).
  Lemma relax_field f h en v c pd : irel f h -> below (se_field w inputs m1 f en v c pd) (se_field w inputs m2 h en v c pd).
  Proof.
    destruct f as [[a t] k], h as [[a' t'] k']. intros (E & H). cbn [fst snd] in *. injection E as <- <-. unfold se_field.
    assert (B : forall v c, below (se_xs w inputs m1 en (fa_xs a) (let! v := v in let! (b, vs) := k en v c pd in Ok (b, (vs, List.length b))))
                                  (se_xs w inputs m2 en (fa_xs a) (let! v := v in let! (b, vs) := k' en v c pd in Ok (b, (vs, List.length b))))).
    { intros v0 c0. apply relax_xs. bl; [apply below_refl|]. bl; [apply H|]. destruct a1. apply below_refl. }
    destruct (fa_cond a); [|apply B]. bl; [apply below_refl|]. bl; [apply below_refl|]. destruct a1; [|apply below_refl]. bl; [apply B|]. destruct a1 as [? [? ?]]. apply below_refl.
  Qed.
  Definition wrel (x y : option waiting) : Prop :=
    match x, y with
    | None, None => True
    | Some x, Some y => wt_on x = wt_on y /\ irel (wt_item x) (wt_item y) /\ wt_calc x = wt_calc y /\ wt_bytes x = wt_bytes y /\ wt_vals x = wt_vals y
    | _, _ => False
    end.
  Lemma relax_items fs hs : Forall2 irel fs hs -> forall en c out vs x y, wrel x y ->
    below (se_items w inputs m1 fs en c out vs x) (se_items w inputs m2 hs en c out vs y).
  Proof.
    induction 1 as [|f h fs hs Hf _ IH]; intros en c out vs x y Hxy; cbn [se_items].
    { destruct x, y; try contradiction; apply below_refl. }
    destruct f as [[a t] k], h as [[a' t'] k']. assert (E : (a, t) = (a', t')) by apply Hf. injection E as <- <-.
    match goal with |- below (match _ with Some _ => match _ with Some _ => match _ with [] => ?P | _ => _ end | None => _ end | None => _ end) (match _ with Some _ => match _ with Some _ => match _ with [] => ?Q | _ => _ end | None => _ end | None => _ end) =>
      assert (PL : below P Q) end.
    { bl; [apply below_refl|]. rename a0 into v.
      assert (Epd : match x with Some x => String.eqb (wt_on x) (fa_name a) | None => false end = match y with Some x => String.eqb (wt_on x) (fa_name a) | None => false end).
      { destruct x, y; try contradiction; [|reflexivity]. destruct Hxy as (-> & _). reflexivity. }
      rewrite <- Epd. bl; [apply relax_field; assumption|]. destruct a0 as [b [vs' n]]. destruct x as [x|], y as [y|]; try contradiction; [|apply IH; exact I].
      destruct Hxy as (X1 & X2 & X3 & X4 & X5). rewrite <- X1, <- X3, <- X4, <- X5.
      destruct (_ && is_some (cont_len t)).
      - bl; [apply below_refl|]. bl; [apply below_refl|].
        assert (E : fst (wt_item x) = fst (wt_item y)) by apply X2. rewrite <- E.
        bl; [apply relax_field; assumption|]. destruct a2 as [b0 [vs1 ?]].
        set (N1 := se_items w inputs m1 fs _ _ _ _ None). set (N2 := se_items w inputs m2 hs _ _ _ _ None).
        assert (NN : below N1 N2) by (apply IH; exact I). destruct Hm as [->| <-]; [|destruct m1; [destruct (cont_len t); [|exact NN]; bl; [apply below_refl|]; bl; [apply below_refl|]; destruct (_ =? _)%nat; [exact NN|apply below_refl]|exact NN]].
        intros r Hr. destruct m1; [|apply NN; exact Hr]. destruct (cont_len t) as [le|]; [|apply NN; exact Hr].
        apply bind_ok in Hr as (lv & _ & Hr). apply bind_ok in Hr as (lim & _ & Hr). destruct (_ =? _)%nat; [|discriminate]. apply NN; exact Hr.
      - apply IH. cbn. auto. }
    destruct (fa_calc a) as [e|]; [|exact PL]. destruct (blen_calls e) as [[|cn [|]]|]; [exact PL| |apply below_refl|apply below_refl].
    destruct x, y; try contradiction; [apply below_refl|]. apply IH. cbn. auto.
  Qed.
  Lemma relax_limit {A} en len pd (k k' : res ioerr (list Z * A)) : below k k' -> below (se_limit w inputs m1 en len pd k) (se_limit w inputs m2 en len pd k').
  Proof. intros H. unfold se_limit. destruct len; [|assumption]. destruct pd; [assumption|]. bl; [apply below_refl|]. bl; [apply below_refl|]. bl; [exact H|]. destruct a1. repeat bl. Qed.
  Lemma relax_complex : forall t a en v c pd, below (se_complex w p rf inputs m1 e1 a t en v c pd) (se_complex w p rf inputs m2 e2 a t en v c pd).
  Proof.
    induction t using ty_ind'; intros a en v c pd; cbn [se_complex]; destruct (fa_pad a); try apply below_refl;
      try (bl; [apply relax_type|]; match goal with x : (_ * _)%type |- _ => destruct x end; apply below_refl).
    match goal with |- below (if ?b then _ else _) _ => destruct b end; [apply below_refl|]. apply relax_limit. bl; [apply below_refl|]. apply relax_items; [|exact I].
    induction H as [|f its Hf _ IHl]; cbn [map]; constructor; [|exact IHl]. split; [reflexivity|]. cbn [snd]. intros. apply Hf.
  Qed.
  Lemma relax_se_items items en c : below (se_items w inputs m1 (map (se_item w p rf inputs m1 e1) items) en c [] [] None)
                                       (se_items w inputs m2 (map (se_item w p rf inputs m2 e2) items) en c [] [] None).
  Proof.
    apply relax_items; [|exact I]. induction items as [|f its IHl]; cbn [map]; constructor; [|exact IHl]. split; [reflexivity|]. cbn [snd se_item]. intros. apply relax_complex.
  Qed.
  Lemma relax_variants name items v : below (se_variants w p rf inputs m1 e1 name items v) (se_variants w p rf inputs m2 e2 name items v).
  Proof.
    induction items as [|[a t] items IH]; cbn [se_variants]; [repeat bl|]. bl; [apply below_refl|]. destruct a0; [|exact IH].
    destruct v; try apply below_refl; destruct (String.eqb name _); try apply below_refl; destruct (String.eqb (fa_name a) _); try apply below_refl.
    - destruct (is_cont t); [apply below_refl|]. bl; [apply relax_xs; apply relax_complex|]. destruct a0. apply below_refl.
    - destruct t; try apply below_refl. bl; [apply below_refl|]. bl; [apply below_refl|]. bl; [apply relax_se_items|]. destruct a2. repeat bl.
  Qed.
  Lemma relax_top d v : below (se_top w p rf inputs m1 e1 d v) (se_top w p rf inputs m2 e2 d v).
  Proof.
    unfold se_top. destruct (d_ty d) as [e| | | |de|db|f|n args|el lc|len tg items];
      try (apply relax_xs; apply relax_type); try apply below_refl;
      try (destruct v; try apply below_refl; apply relax_xs; try apply below_refl; (bl; [apply relax_type|]); match goal with x : (_ * _)%type |- _ => destruct x end; apply below_refl).
    destruct tg; [apply relax_xs, relax_limit, relax_variants|]. apply relax_xs. bl; [apply relax_limit|destruct a; apply below_refl].
    unfold se_struct. bl; [apply below_refl|]. bl; [apply below_refl|]. apply relax_se_items.
  Qed.
End Relax.

Theorem sencode_relax w p rf g fuel : forall n args v r, sencode w p rf (Some g) fuel n args v = Ok r -> sencode w p rf None fuel n args v = Ok r.
Proof.
  induction fuel as [|fuel IH]; intros n args v r H; [discriminate H|]. cbn [sencode] in *.
  apply bind_ok in H as (d & Ed & H). rewrite Ed. cbn [bind]. apply bind_ok in H as (inp & Ei & H). rewrite Ei. cbn [bind].
  revert H. apply relax_top; [auto|]. intros ? ? ? ? ?. apply IH. assumption.
Qed.
Theorem sencode_more w p rf m k : forall fuel n args v r, (fuel <= k)%nat -> sencode w p rf m fuel n args v = Ok r -> sencode w p rf m k n args v = Ok r.
Proof.
  induction k as [|k IH]; intros fuel n args v r Hk H; (destruct fuel as [|fuel]; [discriminate H|]); [lia|]. cbn [sencode] in *.
  apply bind_ok in H as (d & Ed & H). rewrite Ed. cbn [bind]. apply bind_ok in H as (inp & Ei & H). rewrite Ei. cbn [bind].
  revert H. apply relax_top; [auto|]. intros ? ? ? ? ?. eapply IH; [|eassumption]. lia.
Qed.

(** The generated encoder and decoder. *)
Theorem encode_decode w g mk p rf : world_laws w g mk -> rt_program p mk -> world_suffixing w -> dec_ok p rf ->
  (forall n d, p n = Some d -> enc_wf d = true /\ enc_code p rf d <> None) ->
  forall fuel n args v b rest, foreign_of p n = None ->
    sencode w p rf (Some g) fuel n args v = Ok (b, v) -> (mk_ty mk n = true -> rest = []) ->
    encode w p rf fuel n args v = Ok b /\ decode w p rf fuel n args (b ++ rest) = Ok (v, rest).
Proof.
  intros Hw Hp Hs Hd He fuel n args v b rest Hf H Hg. split.
  - rewrite encode_refines by assumption. rewrite (sencode_relax _ _ _ _ _ _ _ _ _ H). reflexivity.
  - destruct (decode_refines w p rf Hs Hd fuel n args (b ++ rest)) as (-> & _). eapply sencode_sdecode; eauto.
Qed.
