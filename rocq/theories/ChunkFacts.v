(** The decoder and the way its input arrives (C45). *)
From Verif Require Import Base Scalar EnumBits Expr Asg Gen Decode Encode Spec DecRef.
From Coq Require Import Lia.
Open Scope string_scope. Open Scope Z_scope. Open Scope list_scope.

(** The same world, except that a reader asked for its buffer shows [fill n] of the [n] bytes it has left. *)
Definition with_fill (w : world) (fill : nat -> nat) : world :=
  {| w_chk := w_chk w; w_fty := w_fty w; w_ufn := w_ufn w; w_fenc := w_fenc w; w_fdec := w_fdec w; w_xenc := w_xenc w; w_xdec := w_xdec w; w_fill := fill |}.

(** [r] comes out as [r'], or not at all. *)
Definition below {E A} (r r' : res E A) : Prop := r = Hang \/ r = r'.
Lemma below_refl {E A} (r : res E A) : below r r. Proof. right. reflexivity. Qed.
Lemma below_bind {E A B} (r r' : res E A) (f f' : A -> res E B) : below r r' -> (forall a, below (f a) (f' a)) -> below (bind r f) (bind r' f').
Proof. intros [->| ->] H; [left; reflexivity|]. destruct r' as [a|e| |]; cbn; auto; try (right; reflexivity). Qed.

Section Below.
  Variables (w : world) (f g : nat -> nat) (inputs : string -> option val).
  Hypothesis Hfg : forall n, (0 < n)%nat -> (0 < f n)%nat /\ (f n <= g n)%nat.
  Variables rec rec' : string -> list val -> list Z -> res ioerr (val * list Z).
  Hypothesis Hrec : forall n vs l, below (rec n vs l) (rec' n vs l).
  Notation run := (drun (with_fill w f) inputs rec).
  Notation run' := (drun (with_fill w g) inputs rec').

  Lemma take_below {A} s (k k' : list Z -> res ioerr (A * list Z)) st : (forall l, below (k l) (k' l)) -> below (dtake s k st) (dtake s k' st).
  Proof. intros H. unfold dtake. apply below_bind; [apply below_refl|]. intros l. apply below_bind; [apply H|]. intros [a r]. apply below_refl. Qed.
  Lemma for_below body body' : (forall st, below (body st) (body' st)) -> forall n st, below (for_loop n body st) (for_loop n body' st).
  Proof. intros H. induction n as [|n IH]; intros st; [apply below_refl|]. cbn [for_loop]. apply below_bind; [apply H|]. intros [st'|v st']; [apply IH|apply below_refl]. Qed.
  Lemma while_below s body body' : (forall st, below (body st) (body' st)) -> forall n st, below (while_loop n s body st) (while_loop n s body' st).
  Proof.
    intros H. induction n as [|n IH]; intros st; [apply below_refl|]. cbn [while_loop]. apply below_bind; [apply below_refl|]. intros [|z l]; [apply below_refl|].
    apply below_bind; [apply H|]. intros [st'|v st']; [|apply below_refl]. apply below_bind; [apply below_refl|]. intros l'. destruct (_ <? _)%nat; [apply IH|apply below_refl].
  Qed.
  Lemma firstn_le_prefix {A} (a b c : nat) (l : list A) : (a <= b)%nat -> (b <= c)%nat -> firstn a (firstn b l) = firstn a (firstn c l).
  Proof. intros. rewrite !firstn_firstn. f_equal. lia. Qed.
  Lemma term_below s term body body' : (forall st, below (body st) (body' st)) -> forall n st, below (term_loop f n s term body st) (term_loop g n s term body' st).
  Proof.
    intros H. induction n as [|n IH]; intros st; [apply below_refl|]. cbn [term_loop]. apply below_bind; [apply below_refl|]. intros l.
    destruct l as [|z l]; [rewrite !firstn_nil; apply below_refl|]. set (L := z :: l) in *. destruct (Hfg (List.length L)) as [P Q]; [cbn; lia|]. rewrite !firstn_length.
    assert (HL : (0 < List.length L)%nat) by (cbn; lia).
    destruct (Nat.eqb_spec (Nat.min (f (List.length L)) (List.length L)) 0) as [Z0|_]; [lia|]. destruct (Nat.eqb_spec (Nat.min (g (List.length L)) (List.length L)) 0) as [Z0|_]; [lia|].
    destruct (Nat.ltb_spec (Nat.min (f (List.length L)) (List.length L)) (List.length term)) as [S1|S1]; [left; reflexivity|].
    destruct (Nat.ltb_spec (Nat.min (g (List.length L)) (List.length L)) (List.length term)) as [S2|S2]; [lia|].
    rewrite (firstn_le_prefix (List.length term) (f (List.length L)) (g (List.length L)) L) by lia.
    destruct (zlist_eqb _ term); [apply below_refl|]. apply below_bind; [apply H|]. intros [st'|v st']; [|apply below_refl].
    apply below_bind; [apply below_refl|]. intros l'. destruct (_ <? _)%nat; [apply IH|apply below_refl].
  Qed.

  Fixpoint run_below (i : dinstr) {struct i} : forall st, below (run i st) (run' i st).
  Proof.
    assert (HS : forall l, (forall i, In i l -> forall st, below (run i st) (run' i st)) -> forall st, below (dseq (with_fill w f) inputs rec l st) (dseq (with_fill w g) inputs rec' l st)).
    { induction l as [|j l IH]; intros Hl st; [apply below_refl|]. cbn [dseq]. apply below_bind; [apply Hl; left; reflexivity|]. intros [st'|v st']; [apply IH; intros; apply Hl; right; assumption|apply below_refl]. }
    destruct i as [r e m|r c|s r len|s r x args|c pre s r x args|s r n args|s r n args|d r s|s r q|s r q len|s r d len|s stop term out body|out item|ts c body|c body|r| |s len]; intros st;
      try (cbn [drun]; apply below_refl).
    - (* conditional transform *)
      assert (Hl : forall j, In j pre -> forall st, below (run j st) (run' j st)).
      { clear -run_below. induction pre as [|j0 pre IH]; [intros j []|]. intros j [<-|Hj]; [apply run_below|apply IH, Hj]. }
      specialize (HS pre Hl). cbn [drun].
      repeat (apply below_bind; [apply below_refl|intros ?]). destruct a0; [|apply below_refl].
      apply below_bind; [apply HS|]. intros [st'|v st']; apply below_refl.
    - (* reference *)
      cbn [drun]. apply below_bind; [apply below_refl|]. intros vs. apply below_bind; [apply take_below; intros l; apply Hrec|]. intros [v st']. apply below_refl.
    - (* loop *)
      assert (Hl : forall j, In j body -> forall st, below (run j st) (run' j st)).
      { clear -run_below. induction body as [|j0 body IH]; [intros j []|]. intros j [<-|Hj]; [apply run_below|apply IH, Hj]. }
      specialize (HS body Hl).
      assert (Hi : forall st, below (let! o := dseq (with_fill w f) inputs rec body st in match o with DNext st' => Ok (DNext (dleave st st')) | o => Ok o end)
        (let! o := dseq (with_fill w g) inputs rec' body st in match o with DNext st' => Ok (DNext (dleave st st')) | o => Ok o end)).
      { intros st1. apply below_bind; [apply HS|]. intros [?|? ?]; apply below_refl. }
      cbn [drun]. destruct stop as [stop|]; [|destruct term as [term|]].
      + apply below_bind; [apply below_refl|intros v]. apply below_bind; [apply below_refl|intros k]. apply for_below, Hi.
      + apply below_bind; [apply below_refl|intros v]. apply below_bind; [apply below_refl|intros tb]. apply below_bind; [apply below_refl|intros l]. apply term_below, Hi.
      + apply below_bind; [apply below_refl|intros l]. apply below_bind; [apply while_below, Hi|]. intros [?|? ?]; apply below_refl.
    - assert (Hl : forall j, In j body -> forall st, below (run j st) (run' j st)).
      { clear -run_below. induction body as [|j0 body IH]; [intros j []|]. intros j [<-|Hj]; [apply run_below|apply IH, Hj]. }
      specialize (HS body Hl). cbn [drun]. apply below_bind; [apply below_refl|intros cv]. apply below_bind; [apply below_refl|intros b]. destruct b; [|apply below_refl].
      apply below_bind; [apply HS|]. intros [?|? ?]; apply below_refl.
    - assert (Hl : forall j, In j body -> forall st, below (run j st) (run' j st)).
      { clear -run_below. induction body as [|j0 body IH]; [intros j []|]. intros j [<-|Hj]; [apply run_below|apply IH, Hj]. }
      specialize (HS body Hl). cbn [drun]. apply below_bind; [apply below_refl|intros cv]. apply below_bind; [apply below_refl|intros b]. destruct b; [|apply below_refl].
      apply below_bind; [apply HS|]. intros [?|? ?]; apply below_refl.
  Qed.
  Lemma seq_below l : forall st, below (dseq (with_fill w f) inputs rec l st) (dseq (with_fill w g) inputs rec' l st).
  Proof. induction l as [|j l IH]; intros st; [apply below_refl|]. cbn [dseq]. apply below_bind; [apply run_below|]. intros [st'|v st']; [apply IH|apply below_refl]. Qed.
End Below.

Lemma params_fill w f g : forall ps args inp, bind_params (with_fill w f) ps args inp = bind_params (with_fill w g) ps args inp.
Proof.
  induction ps as [|[n [e|]] ps IH]; intros args inp; [reflexivity| |destruct args as [|v args]; [reflexivity|apply IH]].
  destruct args as [|v args]; [reflexivity|]. destruct v; try reflexivity. match goal with o : option val |- _ => destruct o end; cbn [bind_params]; [apply IH|]. change (eval (with_fill w g) (fun x => lookup x inp) (fun _ => None) e) with (eval (with_fill w f) (fun x => lookup x inp) (fun _ => None) e). destruct (eval _ _ _ _); cbn [bind]; try reflexivity. apply IH.
Qed.
Theorem decode_below w f g p rf : (forall n, (0 < n)%nat -> (0 < f n)%nat /\ (f n <= g n)%nat) ->
  forall k n args l, below (decode (with_fill w f) p rf k n args l) (decode (with_fill w g) p rf k n args l).
Proof.
  intros H. induction k as [|k IH]; intros n args l; [apply below_refl|]. cbn [decode]. apply below_bind; [apply below_refl|intros d]. apply below_bind; [apply below_refl|intros code].
  apply below_bind; [right; apply params_fill|intros inp]. unfold drun_top. apply below_bind; [apply seq_below; [exact H|exact IH]|]. intros o. apply below_refl.
Qed.

(** Every terminator is a string of at most [m] bytes. *)
Definition term_short (m : nat) (lc : lenc) : bool := match lc with LTerm (EStr s) => (List.length s <=? m)%nat | LTerm _ => false | _ => true end.
Fixpoint terms_short (m : nat) (t : ty) : bool :=
  match t with
  | TArr el lc => term_short m lc && terms_short m el
  | TCont _ _ items => (fix go (l : list (fattr * ty)) : bool := match l with [] => true | f :: l => terms_short m (snd f) && go l end) items
  | _ => true
  end.

Lemma bind_ext {E A B} (r r' : res E A) (k k' : A -> res E B) : r = r' -> (forall a, k a = k' a) -> bind r k = bind r' k'.
Proof. intros -> H. destruct r'; cbn; auto. Qed.

Lemma bytes_u8s b : u8s_of (vbytes b) = Ok b.
Proof. unfold vbytes. cbn [u8s_of]. induction b as [|z b IH]; [reflexivity|]. cbn [map mapM bind]. rewrite IH. reflexivity. Qed.

Section Same.
  Variables (w : world) (f g : nat -> nat) (m : nat) (p : program) (rf : nat) (inputs : string -> option val).
  Hypothesis Hf : forall n, (Nat.min n m <= f n)%nat.
  Hypothesis Hg : forall n, (Nat.min n m <= g n)%nat.
  Hypothesis Hm : (1 <= m)%nat.
  Variables rec rec' : string -> list val -> list Z -> res ioerr (val * list Z).
  Hypothesis Hrec : forall n vs l, rec n vs l = rec' n vs l.
  Notation wf := (with_fill w f). Notation wg := (with_fill w g).

  Lemma sd_times_ext k k' : (forall l, k l = k' l) -> forall n l, sd_times k n l = sd_times k' n l.
  Proof. intros H. induction n as [|n IH]; intros l; [reflexivity|]. cbn [sd_times]. apply bind_ext; [apply H|]. intros [v l1]. apply bind_ext; [apply IH|reflexivity]. Qed.
  Lemma sd_all_ext k k' : (forall l, k l = k' l) -> forall n l, sd_all k n l = sd_all k' n l.
  Proof. intros H. induction n as [|n IH]; intros l; [reflexivity|]. cbn [sd_all]. destruct l as [|z l]; [reflexivity|]. apply bind_ext; [apply H|]. intros [v l1]. destruct (_ <? _)%nat; [|reflexivity]. apply bind_ext; [apply IH|reflexivity]. Qed.
  Lemma sd_until_same term k k' : (List.length term <= m)%nat -> (forall l, k l = k' l) -> forall n l, sd_until f term k n l = sd_until g term k' n l.
  Proof.
    intros Ht H. induction n as [|n IH]; intros l; [reflexivity|]. cbn [sd_until]. destruct l as [|z l]; [rewrite !firstn_nil; reflexivity|]. set (L := z :: l) in *. rewrite !firstn_length.
    assert (HL : (0 < List.length L)%nat) by (cbn; lia). pose proof (Hf (List.length L)) as F. pose proof (Hg (List.length L)) as G.
    destruct (Nat.eqb_spec (Nat.min (f (List.length L)) (List.length L)) 0) as [Z0|_]; [lia|]. destruct (Nat.eqb_spec (Nat.min (g (List.length L)) (List.length L)) 0) as [Z0|_]; [lia|].
    destruct (Nat.ltb_spec (Nat.min (f (List.length L)) (List.length L)) (List.length term)) as [S1|S1]; destruct (Nat.ltb_spec (Nat.min (g (List.length L)) (List.length L)) (List.length term)) as [S2|S2]; try lia; [reflexivity|].
    rewrite !firstn_firstn. rewrite !Nat.min_l by lia. destruct (zlist_eqb _ term); [reflexivity|]. apply bind_ext; [apply H|]. intros [v l1]. destruct (_ <? _)%nat; [|reflexivity]. apply bind_ext; [apply IH|reflexivity].
  Qed.

  Lemma sd_arr_same k k' en el lc : term_short m lc = true -> (forall l, k l = k' l) -> forall l, sd_arr wf p rf inputs k en el lc l = sd_arr wg p rf inputs k' en el lc l.
  Proof.
    intros T H l. unfold sd_arr. destruct lc as [e| |e].
    - apply bind_ext; [reflexivity|]. intros v. destruct (kind_of _) as [[]|d|]; try reflexivity; apply bind_ext; try reflexivity. intros a. apply bind_ext; [apply sd_times_ext, H|reflexivity].
    - destruct (kind_of _) as [[]|d|]; try reflexivity. apply bind_ext; [apply sd_all_ext, H|reflexivity].
    - destruct e; try discriminate T. cbn [term_short] in T. apply Nat.leb_le in T. unfold ev, eval. cbn [emit reval bind]. rewrite bytes_u8s. cbn [bind].
      apply bind_ext; [apply sd_until_same; assumption|reflexivity].
  Qed.
  Fixpoint sd_type_same (t : ty) {struct t} : terms_short m t = true -> forall en l, sd_type wf p rf inputs rec en t l = sd_type wg p rf inputs rec' en t l.
  Proof.
    destruct t as [e| | | |d|d|x|x args|el lc|len tg items]; intros T en l; try reflexivity.
    - cbn [sd_type]. apply bind_ext; [reflexivity|]. intros vs. destruct (p x) as [[? [] ?]|]; try apply Hrec; reflexivity.
    - cbn [sd_type]. cbn [terms_short] in T. apply andb_prop in T as [T1 T2]. apply sd_arr_same; [exact T1|]. intros l'. apply sd_type_same, T2.
  Qed.
  Lemma sd_xs_ext {A} en : forall xs (k k' : list Z -> res ioerr (A * list Z)), (forall l, k l = k' l) -> forall l, sd_xs wf inputs en xs k l = sd_xs wg inputs en xs k' l.
  Proof.
    induction xs as [|x xs IH]; intros k k' H l; [apply H|]. cbn [sd_xs]. apply bind_ext; [reflexivity|]. intros b. destruct b; [|apply IH, H]. apply bind_ext; [reflexivity|]. intros vs. apply bind_ext; [reflexivity|].
    intros [pl rest]. apply bind_ext; [apply IH, H|reflexivity].
  Qed.
  Lemma sd_limit_ext {A} en len (k k' : list Z -> res ioerr (A * list Z)) : (forall l, k l = k' l) -> forall l, sd_limit wf inputs en len k l = sd_limit wg inputs en len k' l.
  Proof. intros H l. destruct len as [e|]; [|apply H]. cbn [sd_limit]. apply bind_ext; [reflexivity|]. intros v. apply bind_ext; [reflexivity|]. intros n. apply bind_ext; [apply H|reflexivity]. Qed.
  Lemma sd_items_ext (h h' : fattr * ty -> env -> list Z -> res ioerr (vals * list Z)) : forall items, (forall f, In f items -> forall en l, h f en l = h' f en l) ->
    forall en l, sd_items wf inputs (map (fun f => (fst f, snd f, h f)) items) en l = sd_items wg inputs (map (fun f => (fst f, snd f, h' f)) items) en l.
  Proof.
    induction items as [|[a t] items IH]; intros H en l; [reflexivity|]. cbn [map sd_items]. apply bind_ext.
    - unfold sd_field. cbn [fst snd]. destruct (fa_cond a) as [e|]; [|apply sd_xs_ext; intros; apply H; left; reflexivity]. apply bind_ext; [reflexivity|]. intros c.
      destruct (fa_pad a); [apply sd_xs_ext; intros; apply H; left; reflexivity|]. apply bind_ext; [reflexivity|]. intros b. destruct b; [|reflexivity].
      apply bind_ext; [apply sd_xs_ext; intros; apply H; left; reflexivity|reflexivity].
    - intros [vs l1]. apply bind_ext; [apply IH; intros; apply H; right; assumption|reflexivity].
  Qed.
  Fixpoint sd_complex_same (t : ty) {struct t} : terms_short m t = true -> forall a en l, sd_complex wf p rf inputs rec a t en l = sd_complex wg p rf inputs rec' a t en l.
  Proof.
    intros T a en l.
    destruct t as [e| | | |d|d|x|x args|el lc|len tg items]; cbn [sd_complex]; destruct (fa_pad a); try reflexivity; try (apply bind_ext; [apply sd_type_same; exact T|reflexivity]).
    destruct tg; [reflexivity|]. apply sd_limit_ext. intros l'.
    apply (sd_items_ext (fun f => sd_complex wf p rf inputs rec (fst f) (snd f)) (fun f => sd_complex wg p rf inputs rec' (fst f) (snd f))).
    clear -T sd_complex_same. induction items as [|[a0 t0] items IH]; [intros f0 []|]. cbn [terms_short snd] in T. apply andb_prop in T as [T1 T2].
    intros f0 [<-|Hin]; [intros; apply sd_complex_same; exact T1|]. apply IH; [exact T2|exact Hin].
  Qed.
  Lemma terms_items len tg items : terms_short m (TCont len tg items) = true -> forall f0, In f0 items -> terms_short m (snd f0) = true.
  Proof. intros T. induction items as [|[a0 t0] items IH]; [intros f0 []|]. cbn [terms_short snd] in T. apply andb_prop in T as [T1 T2]. intros f0 [<-|Hin]; [exact T1|apply IH; assumption]. Qed.
  Lemma sd_variants_same n : forall items, (forall f0, In f0 items -> terms_short m (snd f0) = true) -> forall l, sd_variants wf p rf inputs rec n items l = sd_variants wg p rf inputs rec' n items l.
  Proof.
    induction items as [|[a t] items IH]; intros T l; [reflexivity|]. cbn [sd_variants]. apply bind_ext; [reflexivity|]. intros b. destruct b; [|apply IH; intros; apply T; right; assumption].
    apply bind_ext; [|reflexivity]. apply sd_xs_ext. intros l'. apply sd_complex_same. apply (T (a, t)). left. reflexivity.
  Qed.
  Lemma sd_top_same d : terms_short m (d_ty d) = true -> forall l, sd_top wf p rf inputs rec d l = sd_top wg p rf inputs rec' d l.
  Proof.
    intros T l. unfold sd_top. apply sd_xs_ext. intros l'. destruct (d_ty d) as [e| | | |e|e|x|x args|el lc|len tg items]; try reflexivity.
    - apply bind_ext; [apply sd_type_same; exact T|reflexivity].
    - apply bind_ext; [apply sd_type_same; exact T|reflexivity].
    - destruct tg; [apply sd_limit_ext; intros; apply sd_variants_same, (terms_items _ _ _ T)|]. apply bind_ext; [|reflexivity]. apply sd_limit_ext. intros l1.
      apply (sd_items_ext (fun f => sd_complex wf p rf inputs rec (fst f) (snd f)) (fun f => sd_complex wg p rf inputs rec' (fst f) (snd f))).
      intros f0 Hin en l2. apply sd_complex_same. eapply terms_items; eassumption.
  Qed.
End Same.

Theorem sdecode_same w f g m p rf : (1 <= m)%nat -> (forall n, (Nat.min n m <= f n)%nat) -> (forall n, (Nat.min n m <= g n)%nat) ->
  (forall x d, p x = Some d -> terms_short m (d_ty d) = true) ->
  forall k n args l, sdecode (with_fill w f) p rf k n args l = sdecode (with_fill w g) p rf k n args l.
Proof.
  intros Hm Hf Hg T. induction k as [|k IH]; intros n args l; [reflexivity|]. cbn [sdecode]. destruct (p n) as [d|] eqn:Ed; cbn [of_some bind]; [|reflexivity].
  apply bind_ext; [apply params_fill|]. intros inp. apply (sd_top_same w f g m); try assumption. eapply T, Ed.
Qed.
