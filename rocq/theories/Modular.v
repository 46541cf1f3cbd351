(** Declarations that a type does not refer to, directly or indirectly, have no part in reading or writing it. *)
From Verif Require Import DecRef EncRef RtWf RoundTrip CoderFacts ChunkFacts.
From Coq Require Import Lia.
Open Scope string_scope. Open Scope Z_scope. Open Scope list_scope.

(** The types a type names. *)
Fixpoint mentions (t : ty) : list string :=
  match t with
  | TRef n _ => [n]
  | TArr el _ => mentions el
  | TCont _ _ items => (fix go (l : list (fattr * ty)) : list string := match l with [] => [] | f :: l => mentions (snd f) ++ go l end) items
  | _ => []
  end.
(** Two programs have the same declarations for the names in [s], and these name only types in [s]. *)
Definition agree (p p' : program) (s : string -> Prop) : Prop :=
  forall n, s n -> p n = p' n /\ forall d, p n = Some d -> forall x, In x (mentions (d_ty d)) -> s x.

Section Same.
  Variable w : world.
  Variables p p' : program.
  Variable rf : nat.
  Variable s : string -> Prop.
  Hypothesis HA : agree p p' s.
  Variable inp : string -> option val.
  Notation on t := (forall x, In x (mentions t) -> s x).

  Lemma resolved_same n : forall t, on t -> resolved p n t = resolved p' n t.
  Proof.
    induction n as [|n IH]; intros t H; [destruct t; reflexivity|]. destruct t; try reflexivity. cbn [resolved]. destruct (HA n0 (H n0 (or_introl eq_refl))) as [E C]. rewrite <- E. destruct (p n0) as [d|]; [|reflexivity]. apply IH, C. reflexivity.
  Qed.
  Lemma on_items len tg items : on (TCont len tg items) -> forall f, In f items -> on (snd f).
  Proof.
    cbn [mentions]. induction items as [|f items IH]; intros H g []; [subst g; intros x Hx; apply H, in_or_app; auto|]. apply IH; [|assumption]. intros x Hx. apply H, in_or_app. auto.
  Qed.

  Section Read.
  Variables rec rec' : string -> list val -> list Z -> res ioerr (val * list Z).
  Hypothesis Hrec : forall n vs l, s n -> rec n vs l = rec' n vs l.
  Lemma until_ext fill term k k' : (forall l, k l = k' l) -> forall n l, sd_until fill term k n l = sd_until fill term k' n l.
  Proof.
    intros H. induction n as [|n IH]; intros l; [reflexivity|]. cbn [sd_until]. destruct (_ =? 0)%nat; [reflexivity|]. destruct (_ <? _)%nat; [reflexivity|]. destruct (zlist_eqb _ _); [reflexivity|].
    apply bind_ext; [apply H|]. intros [v l1]. destruct (_ <? _)%nat; [|reflexivity]. apply bind_ext; [apply IH|reflexivity].
  Qed.
  Lemma rd_type t : on t -> forall en l, sd_type w p rf inp rec en t l = sd_type w p' rf inp rec' en t l.
  Proof.
    induction t as [e| | | |d|d|x|x args|el IH lc|len tg items] using ty_ind; intros T en l; try reflexivity.
    - cbn [sd_type]. apply bind_ext; [reflexivity|]. intros vs. assert (Sx : s x) by (apply T; left; reflexivity). rewrite <- (proj1 (HA x Sx)). destruct (p x) as [[? [] ?]|]; try (apply Hrec, Sx); reflexivity.
    - cbn [sd_type]. unfold sd_arr. rewrite <- (resolved_same rf el T). destruct lc as [e| |e].
      + apply bind_ext; [reflexivity|]. intros v. destruct (kind_of _) as [[]|d|]; try reflexivity; apply bind_ext; try reflexivity. intros a. apply bind_ext; [apply sd_times_ext; intros; apply IH, T|reflexivity].
      + destruct (kind_of _) as [[]|d|]; try reflexivity. apply bind_ext; [apply sd_all_ext; intros; apply IH, T|reflexivity].
      + apply bind_ext; [reflexivity|]. intros v. apply bind_ext; [reflexivity|]. intros tb. apply bind_ext; [apply until_ext; intros; apply IH, T|reflexivity].
  Qed.
  Lemma rxs_ext {A} en : forall xs (k k' : list Z -> res ioerr (A * list Z)), (forall l, k l = k' l) -> forall l, sd_xs w inp en xs k l = sd_xs w inp en xs k' l.
  Proof.
    induction xs as [|x xs IH]; intros k k' H l; [apply H|]. cbn [sd_xs]. apply bind_ext; [reflexivity|]. intros b. destruct b; [|apply IH, H]. apply bind_ext; [reflexivity|]. intros vs. apply bind_ext; [reflexivity|].
    intros [pl rest]. apply bind_ext; [apply IH, H|reflexivity].
  Qed.
  Lemma rlimit_ext {A} en len (k k' : list Z -> res ioerr (A * list Z)) : (forall l, k l = k' l) -> forall l, sd_limit w inp en len k l = sd_limit w inp en len k' l.
  Proof. intros H l. destruct len as [e|]; [|apply H]. cbn [sd_limit]. apply bind_ext; [reflexivity|]. intros v. apply bind_ext; [reflexivity|]. intros n. apply bind_ext; [apply H|reflexivity]. Qed.
  Lemma ritems_ext (h h' : fattr * ty -> env -> list Z -> res ioerr (vals * list Z)) : forall items, (forall f, In f items -> forall en l, h f en l = h' f en l) ->
    forall en l, sd_items w inp (map (fun f => (fst f, snd f, h f)) items) en l = sd_items w inp (map (fun f => (fst f, snd f, h' f)) items) en l.
  Proof.
    induction items as [|[a t] items IH]; intros H en l; [reflexivity|]. cbn [map sd_items]. apply bind_ext.
    - unfold sd_field. cbn [fst snd]. destruct (fa_cond a) as [e|]; [|apply rxs_ext; intros; apply H; left; reflexivity]. apply bind_ext; [reflexivity|]. intros c.
      destruct (fa_pad a); [apply rxs_ext; intros; apply H; left; reflexivity|]. apply bind_ext; [reflexivity|]. intros b. destruct b; [|reflexivity].
      apply bind_ext; [apply rxs_ext; intros; apply H; left; reflexivity|reflexivity].
    - intros [vs l1]. apply bind_ext; [apply IH; intros; apply H; right; assumption|reflexivity].
  Qed.
  Lemma rd_complex t : on t -> forall a en l, sd_complex w p rf inp rec a t en l = sd_complex w p' rf inp rec' a t en l.
  Proof.
    induction t using ty_ind'; intros T a en l0; cbn [sd_complex]; destruct (fa_pad a); try reflexivity; try (apply bind_ext; [apply rd_type; exact T|reflexivity]).
    destruct tagged; [reflexivity|]. apply rlimit_ext. intros l'.
    apply (ritems_ext (fun f => sd_complex w p rf inp rec (fst f) (snd f)) (fun f => sd_complex w p' rf inp rec' (fst f) (snd f))).
    intros f Hin en1 l1. rewrite Forall_forall in H. apply (H f Hin). eapply on_items; eassumption.
  Qed.
  Lemma rd_variants n : forall items, (forall f, In f items -> on (snd f)) -> forall l, sd_variants w p rf inp rec n items l = sd_variants w p' rf inp rec' n items l.
  Proof.
    induction items as [|[a t] items IH]; intros T l; [reflexivity|]. cbn [sd_variants]. apply bind_ext; [reflexivity|]. intros b. destruct b; [|apply IH; intros g Hg; apply (T g); right; exact Hg].
    apply bind_ext; [|reflexivity]. apply rxs_ext. intros l'. apply rd_complex. apply (T (a, t)). left. reflexivity.
  Qed.
  Lemma rd_top d : on (d_ty d) -> forall l, sd_top w p rf inp rec d l = sd_top w p' rf inp rec' d l.
  Proof.
    intros T l. unfold sd_top. apply rxs_ext. intros l'. destruct (d_ty d) as [e| | | |e|e|x|x args|el lc|len tg items]; try reflexivity.
    - apply bind_ext; [apply rd_type; exact T|reflexivity].
    - apply bind_ext; [apply rd_type; exact T|reflexivity].
    - pose proof (on_items _ _ _ T) as O. destruct tg; [apply rlimit_ext; intros; apply rd_variants, O|]. apply bind_ext; [|reflexivity]. apply rlimit_ext. intros l1.
      apply (ritems_ext (fun f => sd_complex w p rf inp rec (fst f) (snd f)) (fun f => sd_complex w p' rf inp rec' (fst f) (snd f))). intros f Hin en l2. apply rd_complex, O, Hin.
  Qed.
  End Read.

  Section Write.
  Variable m : option good.
  Variables rec rec' : string -> list val -> val -> res ioerr (list Z * val).
  Hypothesis Hrec : forall n vs v, s n -> rec n vs v = rec' n vs v.
  Lemma stimes_ext k k' : (forall v, k v = k' v) -> forall n vs, se_times k n vs = se_times k' n vs.
  Proof. intros H. induction n as [|n IH]; intros vs; [reflexivity|]. cbn [se_times]. destruct vs as [|v vs]; [reflexivity|]. apply bind_ext; [apply H|]. intros x. apply bind_ext; [apply IH|reflexivity]. Qed.
  Lemma map_ext_res {A B} (k k' : A -> res ioerr B) : (forall v, k v = k' v) -> forall vs, mapM k vs = mapM k' vs.
  Proof. intros H. induction vs as [|v vs IH]; [reflexivity|]. cbn [mapM]. apply bind_ext; [apply H|]. intros x. apply bind_ext; [apply IH|reflexivity]. Qed.
  Lemma wr_type t : on t -> forall en v, se_type w p rf inp m rec en t v = se_type w p' rf inp m rec' en t v.
  Proof.
    induction t as [e| | | |d|d|x|x args|el IH lc|len tg items] using ty_ind; intros T en v; try reflexivity.
    - cbn [se_type]. apply bind_ext; [reflexivity|]. intros vs. assert (Sx : s x) by (apply T; left; reflexivity). rewrite <- (proj1 (HA x Sx)). destruct (p x) as [[? [] ?]|]; try (apply Hrec, Sx); reflexivity.
    - cbn [se_type]. unfold se_arr. rewrite <- (resolved_same rf el T). destruct lc as [e| |e].
      + apply bind_ext; [reflexivity|]. intros n. destruct (kind_of _) as [[]|d|]; try reflexivity. apply bind_ext; [reflexivity|]. intros z. apply bind_ext; [reflexivity|]. intros vs. apply bind_ext; [apply stimes_ext; intros; apply IH, T|reflexivity].
      + destruct (kind_of _) as [[]|d|]; try reflexivity. apply bind_ext; [reflexivity|]. intros vs. apply bind_ext; [apply map_ext_res; intros; apply IH, T|reflexivity].
      + apply bind_ext; [reflexivity|]. intros tv. apply bind_ext; [reflexivity|]. intros vs. apply bind_ext; [apply map_ext_res; intros; apply IH, T|reflexivity].
  Qed.
  Lemma wxs_ext {A} en : forall xs (k k' : res ioerr (list Z * A)), k = k' -> se_xs w inp m en xs k = se_xs w inp m en xs k'.
  Proof. intros xs k k' ->. reflexivity. Qed.
  (** Items whose contents are written alike. *)
  Definition alike (f f' : seitem) : Prop := fst f = fst f' /\ forall en v c pe, snd f en v c pe = snd f' en v c pe.
  Definition wlike (x x' : option waiting) : Prop :=
    match x, x' with
    | None, None => True
    | Some x, Some x' => alike (wt_item x) (wt_item x') /\ wt_on x = wt_on x' /\ wt_calc x = wt_calc x' /\ wt_bytes x = wt_bytes x' /\ wt_vals x = wt_vals x'
    | _, _ => False
    end.
  Lemma field_alike f f' : alike f f' -> forall en v c pe, se_field w inp m f en v c pe = se_field w inp m f' en v c pe.
  Proof.
    destruct f as [[a t] k], f' as [[a' t'] k']. intros [E H] en v c pe. cbn [fst snd] in *. injection E as <- <-. unfold se_field. cbv zeta.
    assert (B : forall v c, se_xs w inp m en (fa_xs a) (let! v := v in let! (b, vs) := k en v c pe in Ok (b, (vs, List.length b))) = se_xs w inp m en (fa_xs a) (let! v := v in let! (b, vs) := k' en v c pe in Ok (b, (vs, List.length b)))).
    { intros v0 c0. f_equal. apply bind_ext; [reflexivity|]. intros v1. rewrite H. reflexivity. }
    destruct (fa_cond a) as [e|]; [|apply B]. apply bind_ext; [reflexivity|]. intros b. apply bind_ext; [reflexivity|]. intros b1. destruct b1; [|reflexivity]. rewrite B. reflexivity.
  Qed.
  Lemma items_alike : forall its its', Forall2 alike its its' -> forall en cond out vs0 wt wt', wlike wt wt' -> se_items w inp m its en cond out vs0 wt = se_items w inp m its' en cond out vs0 wt'.
  Proof.
    induction 1 as [|f f' its its' Hf _ IH]; intros en cond out vs0 wt wt' W.
    - cbn [se_items]. destruct wt, wt'; try contradiction; reflexivity.
    - destruct f as [[a t] k], f' as [[a' t'] k']. pose proof (field_alike _ _ Hf) as HF. pose proof Hf as [E _]. cbn [fst] in E. injection E as <- <-. cbn [se_items].
      destruct (fa_calc a) as [e|]; [destruct (blen_calls e) as [[|c [|]]|]; [| |reflexivity|reflexivity]|].
      2: { destruct wt, wt'; try contradiction; [reflexivity|]. apply IH. cbn. auto. }
      all: apply bind_ext; [reflexivity|]; intros v; destruct wt as [x|], wt' as [x'|]; try contradiction; [destruct W as (W1 & W2 & W3 & W4 & W5); rewrite <- W2, <- W3, <- W4, <- W5|];
        (apply bind_ext; [apply HF|]); intros [b [vs n]]; [|apply IH; exact I].
      all: destruct (_ && _); [|apply IH; cbn; auto]; apply bind_ext; [reflexivity|]; intros e'; apply bind_ext; [reflexivity|]; intros cv; rewrite <- (field_alike _ _ W1); pose proof W1 as [W1' _]; rewrite <- W1';
        apply bind_ext; [reflexivity|]; intros [b0 [vs1 n1]];
        (rewrite (IH _ cond (out ++ b0 ++ wt_bytes x ++ b) (vs0 ++ vs1 ++ wt_vals x ++ vs) None None I); reflexivity).
  Qed.
  Lemma limit_ext {A} en len pe (k k' : res ioerr (list Z * A)) : k = k' -> se_limit w inp m en len pe k = se_limit w inp m en len pe k'.
  Proof. intros ->. reflexivity. Qed.
  Lemma wr_complex t : on t -> forall a en v c pe, se_complex w p rf inp m rec a t en v c pe = se_complex w p' rf inp m rec' a t en v c pe.
  Proof.
    induction t using ty_ind'; intros T a en v c pe; cbn [se_complex]; destruct (fa_pad a); try reflexivity; try (rewrite (wr_type _ T); reflexivity).
    destruct tagged; [reflexivity|]. apply limit_ext. apply bind_ext; [reflexivity|]. intros en'. apply items_alike; [|exact I].
    pose proof (on_items _ _ _ T) as O. clear T. induction items as [|f items IH]; [constructor|]. inversion H as [|? ? H1 H2]; subst. cbn [map]. constructor; [|apply IH; [exact H2|intros g Hg; apply O; right; exact Hg]].
    split; [reflexivity|]. intros. cbn [snd]. apply H1. apply O. left. reflexivity.
  Qed.
  Lemma all_alike items : (forall f, In f items -> on (snd f)) -> Forall2 alike (map (se_item w p rf inp m rec) items) (map (se_item w p' rf inp m rec') items).
  Proof.
    induction items as [|f items IH]; intros O; [constructor|]. cbn [map]. constructor; [|apply IH; intros g Hg; apply O; right; exact Hg]. split; [reflexivity|]. intros. cbn [se_item snd]. apply wr_complex. apply O. left. reflexivity.
  Qed.
  Lemma wr_variants n : forall items v, (forall f, In f items -> on (snd f)) -> se_variants w p rf inp m rec n items v = se_variants w p' rf inp m rec' n items v.
  Proof.
    induction items as [|[a t] items IH]; intros v T; [reflexivity|]. cbn [se_variants]. apply bind_ext; [reflexivity|]. intros b. destruct b; [|apply IH; intros g Hg; apply (T g); right; exact Hg].
    assert (Ot : on t) by (apply (T (a, t)); left; reflexivity).
    destruct v; try reflexivity.
    - destruct (String.eqb n _); [|reflexivity]. destruct (String.eqb _ _); [|reflexivity]. destruct (is_cont t); [reflexivity|]. rewrite (wr_complex t Ot). reflexivity.
    - destruct (String.eqb n _); [|reflexivity]. destruct (String.eqb _ _); [|reflexivity]. destruct t; try reflexivity.
      apply bind_ext; [reflexivity|]. intros en. apply bind_ext; [reflexivity|]. intros en1. rewrite (items_alike _ _ (all_alike _ (on_items _ _ _ Ot)) en1 false [] [] None None I). reflexivity.
  Qed.
  Lemma wr_top d v : on (d_ty d) -> se_top w p rf inp m rec d v = se_top w p' rf inp m rec' d v.
  Proof.
    intros T. unfold se_top. destruct (d_ty d) as [e| | | |e|e|x|x args|el lc|len tg items]; try reflexivity.
    - destruct v; try reflexivity. rewrite (wr_type _ T). reflexivity.
    - destruct v; try reflexivity. rewrite (wr_type _ T). reflexivity.
    - pose proof (on_items _ _ _ T) as O. destruct tg; [rewrite (wr_variants _ _ _ O); reflexivity|]. unfold se_struct.
      assert (X : forall en, se_items w inp m (map (se_item w p rf inp m rec) items) en false [] [] None = se_items w inp m (map (se_item w p' rf inp m rec') items) en false [] [] None).
      { intros en. apply items_alike; [|exact I]. apply all_alike, O. }
      apply wxs_ext. apply bind_ext; [|reflexivity]. apply limit_ext. apply bind_ext; [reflexivity|]. intros en. apply bind_ext; [reflexivity|]. intros en1. apply X.
  Qed.
  End Write.
End Same.

Theorem sdecode_agree w p p' rf s : agree p p' s -> forall k n args l, s n -> sdecode w p rf k n args l = sdecode w p' rf k n args l.
Proof.
  intros H. induction k as [|k IH]; intros n args l Sn; [reflexivity|]. cbn [sdecode]. destruct (H n Sn) as [E C]. rewrite <- E. destruct (p n) as [d|] eqn:Ed; [|reflexivity]. cbn [of_some bind].
  apply bind_ext; [reflexivity|]. intros inp. apply (rd_top w p p' rf s H); [exact IH|]. apply C. reflexivity.
Qed.
Theorem sencode_agree w p p' rf s m : agree p p' s -> forall k n args v, s n -> sencode w p rf m k n args v = sencode w p' rf m k n args v.
Proof.
  intros H. induction k as [|k IH]; intros n args v Sn; [reflexivity|]. cbn [sencode]. destruct (H n Sn) as [E C]. rewrite <- E. destruct (p n) as [d|] eqn:Ed; [|reflexivity]. cbn [of_some bind].
  apply bind_ext; [reflexivity|]. intros inp. apply (wr_top w p p' rf s H); [exact IH|]. apply C. reflexivity.
Qed.
