(** Programs that pass the check of Safe.v: their decoders return. *)
From Verif Require Import ScalarFacts ConstIntFacts DecRef RtWf EnumBitsFacts RoundTrip CoderFacts Data DataFacts Safe SafeFacts.
Open Scope string_scope. Open Scope Z_scope. Open Scope list_scope.

Definition okerr {A} (r : res ioerr A) : Prop := match r with Ok _ | Err _ => True | _ => False end.
(** With enough stack, always the same answer, and neither a panic nor a loop. *)
Definition halts {A} (f : nat -> res ioerr A) : Prop := exists K, okerr (f K) /\ forall k, (K <= k)%nat -> f k = f K.

Lemma halts_const {A} (r : res ioerr A) : okerr r -> halts (fun _ => r).
Proof. intros H. exists 0%nat. auto. Qed.
Lemma halts_bind {A B} (f : nat -> res ioerr A) (g : nat -> A -> res ioerr B) : halts f -> (forall a, (exists k, f k = Ok a) -> halts (fun k => g k a)) -> halts (fun k => bind (f k) (g k)).
Proof.
  intros (K & O & E) H. destruct (f K) as [a|e| |] eqn:Ef; cbn in O; try contradiction.
  - destruct (H a (ex_intro _ K Ef)) as (K' & O' & E'). exists (Nat.max K K'). rewrite (E (Nat.max K K')) by lia. cbn [bind]. split; [rewrite E' by lia; exact O'|]. intros k Hk. rewrite (E k) by lia. cbn [bind]. rewrite (E' k), (E' (Nat.max K K')) by lia. reflexivity.
  - exists K. rewrite Ef. split; [exact I|]. intros k Hk. rewrite (E k Hk). reflexivity.
Qed.
Lemma halts_let {A B} (r : res ioerr A) (a : A) (g : nat -> A -> res ioerr B) : r = Ok a -> halts (fun k => g k a) -> halts (fun k => bind r (g k)).
Proof. intros -> H. exact H. Qed.
Lemma halts_S {A} (f : nat -> res ioerr A) : halts (fun k => f (S k)) -> halts f.
Proof. intros (K & O & E). exists (S K). split; [exact O|]. intros k Hk. destruct k as [|k]; [lia|]. apply E. lia. Qed.
Lemma okerr_bind {A B} (r : res ioerr A) (g : A -> res ioerr B) : okerr r -> (forall a, r = Ok a -> okerr (g a)) -> okerr (bind r g).
Proof. destruct r; cbn; auto. Qed.
Lemma mapM_okerr {A B} (f : A -> res ioerr B) l : (forall x, okerr (f x)) -> okerr (mapM f l).
Proof. intros H. induction l as [|x l IH]; cbn; [exact I|]. apply okerr_bind; [apply H|]. intros y _. apply okerr_bind; [exact IH|]. intros ys _. exact I. Qed.
Lemma read_exact_okerr n l : okerr (read_exact n l).
Proof. unfold read_exact. destruct (_ <=? _)%nat; exact I. Qed.
Lemma repr_okerr d b : okerr (repr_of d b).
Proof.
  assert (G : forall its z, okerr (from_repr its z)) by (intros its z; induction its as [|[n [v|]] its IH]; cbn [from_repr]; [exact I|destruct (z =? v); [exact I|exact IH]|exact I]).
  destruct d as [d|d]; cbn [repr_of]; apply okerr_bind; try (intros; exact I); [apply G|]. unfold bf_from_repr. destruct (_ =? 0); exact I.
Qed.

Lemma data_field_weak p rf : forall t c a, data_field p rf c a t = true -> data_field p rf false a t = true.
Proof.
  induction t as [e| | | |d|d|n|n args|el lc IH|len tg items IH] using ty_ind'; intros c a H; try (cbn [data_field] in *; destruct (fa_pad a); [exact H|]; apply andb_true_iff in H as (_ & H); exact H).
  cbn [data_field] in *. destruct (fa_pad a); [exact H|]. apply andb_true_iff in H as (_ & H). cbn [andb negb orb]. apply forallb_forall. intros f Hf'. rewrite forallb_forall in H. specialize (H _ Hf'). destruct c; cbn [orb] in H; [|exact H].
  rewrite Forall_forall in IH. specialize (IH _ Hf'). destruct (is_some (fa_cond a)); [exact H|]. eapply IH; exact H.
Qed.

Section Dec.
  Variable w : world.
  Variable p : program.
  Variable rf : nat.
  Variable F : string -> val -> Prop.
  Variable sg : sig.
  Variable ann : string -> option annot.
  Hypothesis Hf : forall n vs, drops (sg_eat sg n) (w_fdec w n vs).
  Hypothesis Hx : forall n vs, drops false (w_xdec w n vs).
  Hypothesis HF : forall f vs l v rest, okl l -> w_fdec w f vs l = Ok (v, rest) -> F f v.
  Hypothesis HX : forall x vs l pl rest, okl l -> w_xdec w x vs l = Ok (pl, rest) -> okl pl.
  Hypothesis Hwf : forall n d, p n = Some d -> data_wf p rf n d = true.
  Hypothesis Hint : forall f s v, sg_int sg f = Some s -> F f v -> exists z, v = VInt s z /\ in_range s z = true.
  Hypothesis Hlen : forall f h v, sg_len sg f = Some h -> F f v -> exists z, vlen v = Ok (VInt U64 z) /\ 0 <= z <= h.
  Hypothesis Hsf : forall f ats vs l, sg_f sg f ats = true -> Forall2 (vhas p F) ats vs -> okl l -> okerr (w_fdec w f vs l).
  Hypothesis Hsx : forall x ats vs l, sg_x sg x ats = true -> Forall2 (vhas p F) ats vs -> okl l -> okerr (w_xdec w x vs l).
  Hypothesis Hann : forall n a, ann n = Some a -> exists d, p n = Some d /\ foreign_of p n = None /\ decl_safe p rf (w_fty w) sg ann a d = true.
  Notation has := (has p F). Notation has_fields := (has_fields p F). Notation vhas := (vhas p F).
  Notation eats := (eats_of ann). Notation sd k := (sdecode w p rf k).

  Lemma Hf0 : forall n vs, drops false (w_fdec w n vs). Proof. intros. eapply drops_weak. apply Hf. Qed.
  Lemma rec_drops k n vs : drops (eats n) (sd k n vs).
  Proof.
    apply (sdecode_drops w p rf (sg_eat sg) eats Hf Hx). intros m d Ep Em. unfold eats_of in Em. destruct (ann m) as [a|] eqn:Ea; [|discriminate]. destruct (Hann _ _ Ea) as (d' & Ep' & _ & D).
    assert (d' = d) by congruence. subst d'. unfold decl_safe in D. apply andb_true_iff in D as (_ & D). rewrite Em in D. exact D.
  Qed.
  Lemma rec_drops0 k n vs : drops false (sd k n vs). Proof. eapply drops_weak. apply rec_drops. Qed.
  Lemma rec_has k n vs l v rest : foreign_of p n = None -> okl l -> sd k n vs l = Ok (v, rest) -> has (RTNamed n) v.
  Proof. apply (sdecode_has w p rf F Hf0 Hx HF HX Hwf). Qed.

  Section Body.
    Variable rank L : nat.
    Variable inp : string -> option val.
    Variable ienv : list (string * aty).
    Hypothesis Hie : forall n a, lookup n ienv = Some a -> exists v, inp n = Some v /\ vhas a v.
    Hypothesis Hlow : forall n a vs l, ann n = Some a -> (an_rank a < rank)%nat -> Forall2 vhas (an_par a) vs -> okl l -> halts (fun k => sd k n vs l).
    Hypothesis Hsame : forall n a vs l, ann n = Some a -> an_rank a = rank -> Forall2 vhas (an_par a) vs -> okl l -> (List.length l < L)%nat -> halts (fun k => sd k n vs l).
    Notation esafe := (esafe p (w_fty w) sg). Notation esafes := (esafes p (w_fty w) sg).

    Definition mode_ok (m : mode) (l : list Z) : Prop := match m with Free => True | Le => (List.length l <= L)%nat | Lt => (List.length l < L)%nat end.
    Lemma mode_le m l l' : mode_ok m l -> (List.length l' <= List.length l)%nat -> mode_ok m l'.
    Proof. destruct m; cbn; lia. Qed.
    Lemma mode_step {A} m b (f : list Z -> res ioerr (A * list Z)) l a l' : drops b f -> f l = Ok (a, l') -> mode_ok m l -> mode_ok (mstep m b) l'.
    Proof. intros D E. apply D in E. destruct m, b; cbn in *; lia. Qed.
    Lemma mode_keep {A} m b (f : list Z -> res ioerr (A * list Z)) l a l' : drops b f -> f l = Ok (a, l') -> mode_ok m l -> mode_ok m l'.
    Proof. intros D E M. apply D in E. eapply mode_le; [exact M|lia]. Qed.

    Lemma ev_ok fenv en e a : esafe fenv ienv e = Some a -> has_fields fenv en -> exists v, ev w inp en e = Ok v /\ vhas a v.
    Proof.
      intros E H. unfold ev, eval. eapply (rsafe_ok p F sg Hint Hlen (w_chk w) (w_ufn w) fenv ienv); [|exact Hie|exact E].
      intros n t El. eapply has_fields_lookup'; eassumption.
    Qed.
    Lemma evs_ok fenv en l : has_fields fenv en -> forall ats, esafes fenv ienv l = Some ats -> exists vs, mapM (ev w inp en) l = Ok vs /\ Forall2 vhas ats vs.
    Proof.
      intros H. induction l as [|e l IH]; intros ats E; cbn [Safe.esafes] in E; [injection E as <-; exists []; split; [reflexivity|constructor]|].
      destruct (esafe fenv ienv e) as [a|] eqn:Ea; [|discriminate]. destruct (esafes fenv ienv l) as [bs|]; [|discriminate]. injection E as <-. destruct (ev_ok _ _ _ _ Ea H) as (v & Ev & Hv). destruct (IH _ eq_refl) as (vs & Evs & Hvs).
      exists (v :: vs). cbn [mapM]. rewrite Ev. cbn [bind]. rewrite Evs. split; [reflexivity|constructor; assumption].
    Qed.
    Lemma ebool fenv en e a : esafe fenv ienv e = Some a -> is_abool a = true -> has_fields fenv en -> exists b, ev w inp en e = Ok (VBool b).
    Proof. intros E B H. destruct (ev_ok _ _ _ _ E H) as (v & Ev & Hv). destruct a as [|t]; [discriminate|]. destruct t; try discriminate. inversion Hv; subst. eauto. Qed.

    (** *** Loops *)
    Lemma times_halts (f : nat -> list Z -> res ioerr (val * list Z)) m : (forall l, okl l -> mode_ok m l -> halts (fun k => f k l)) -> (forall k, drops false (f k)) ->
      forall n l, okl l -> mode_ok m l -> halts (fun k => sd_times (f k) n l).
    Proof.
      intros H D. induction n as [|n IH]; intros l O M; cbn [sd_times]; [apply halts_const; exact I|]. apply halts_bind; [apply H; assumption|]. intros [v l1] (k & E).
      apply halts_bind; [|intros [vs l2] _; apply halts_const; exact I]. apply IH; [eapply okl_drops; [apply D|exact E|exact O]|eapply mode_keep; [apply D|exact E|exact M]].
    Qed.
    Lemma all_halts (f : nat -> list Z -> res ioerr (val * list Z)) m : (forall l, okl l -> mode_ok m l -> halts (fun k => f k l)) -> (forall k, drops true (f k)) ->
      forall n l, okl l -> mode_ok m l -> (List.length l < n)%nat -> halts (fun k => sd_all (f k) n l).
    Proof.
      intros H D. induction n as [|n IH]; intros l O M N; [lia|]. cbn [sd_all]. destruct l as [|b l]; [apply halts_const; exact I|]. apply halts_bind; [apply H; assumption|]. intros [v l1] (k & E).
      pose proof (D k _ _ _ E) as G. cbn [Nat.b2n] in G. destruct (Nat.ltb_spec (List.length l1) (List.length (b :: l))); [|lia].
      apply halts_bind; [|intros vs _; apply halts_const; exact I]. apply IH; [eapply okl_drops; [apply D|exact E|exact O]|eapply mode_keep; [apply D|exact E|exact M]|lia].
    Qed.
    Lemma until_halts fill tm (f : nat -> list Z -> res ioerr (val * list Z)) m : (List.length tm <= 1)%nat -> (forall l, okl l -> mode_ok m l -> halts (fun k => f k l)) -> (forall k, drops true (f k)) ->
      forall n l, okl l -> mode_ok m l -> (List.length l < n)%nat -> halts (fun k => sd_until fill tm (f k) n l).
    Proof.
      intros T H D. induction n as [|n IH]; intros l O M N; [lia|]. cbn [sd_until]. cbn zeta. set (buf := firstn _ l). destruct (Nat.eqb_spec (List.length buf) 0); [apply halts_const; exact I|].
      destruct (Nat.ltb_spec (List.length buf) (List.length tm)); [lia|]. destruct (zlist_eqb _ _); [apply halts_const; exact I|]. apply halts_bind; [apply H; assumption|]. intros [v l1] (k & E).
      pose proof (D k _ _ _ E) as G. cbn [Nat.b2n] in G. destruct (Nat.ltb_spec (List.length l1) (List.length l)); [|lia].
      apply halts_bind; [|intros [vs l2] _; apply halts_const; exact I]. apply IH; [eapply okl_drops; [apply D|exact E|exact O]|eapply mode_keep; [apply D|exact E|exact M]|lia].
    Qed.

    Lemma read_prims_okerr pr n l : okerr (read_prims pr n l).
    Proof. unfold read_prims. apply okerr_bind; [apply read_exact_okerr|]. intros [a r] _. exact I. Qed.
    Lemma read_reprs_okerr d n l : okerr (read_reprs d n l).
    Proof. unfold read_reprs. apply okerr_bind; [apply read_exact_okerr|]. intros [a r] _. apply okerr_bind; [apply mapM_okerr; apply repr_okerr|]. intros vs _. exact I. Qed.
    Lemma arr_size_safe chk k z s : 0 <= z -> (1 <= k)%nat -> z * Z.of_nat k < 2 ^ 63 -> exists n, arr_size chk k (VInt s z) = Ok n.
    Proof. intros H1 H2 H3. assert (z < 2 ^ 63) by nia. rewrite <- (Z2Nat.id z) in * by lia. eexists. apply arr_size_nat; lia. Qed.
    Lemma len_safe s z : 0 <= z < 2 ^ 63 -> exists n, len_of (VInt s z) = Ok n.
    Proof. intros H. rewrite <- (Z2Nat.id z) by lia. eexists. apply len_of_nat. lia. Qed.
    Lemma prim_size_pos pr : (1 <= prim_size pr)%nat. Proof. destruct pr as [| | |e]; cbn; try lia. destruct (es_scalar e); cbn; lia. Qed.
    Lemma u8s_bytes b : u8s_of (vbytes b) = Ok b.
    Proof. unfold u8s_of, vbytes. induction b as [|x b IH]; cbn [map mapM]; [reflexivity|]. cbn [bind]. rewrite IH. reflexivity. Qed.

    Lemma type_halts t : forall m fenv en l, tsafe p rf (w_fty w) sg ann rank ienv m fenv t = true -> has_fields fenv en -> okl l -> mode_ok m l -> halts (fun k => sd_type w p rf inp (sd k) en t l).
    Proof.
      assert (P : forall pr l, okerr (sd_prim pr l)) by (intros pr l; unfold sd_prim; apply okerr_bind; [apply read_exact_okerr|intros [a r] _; exact I]).
      assert (R : forall d l, okerr (sd_repr d l)) by (intros d l; unfold sd_repr; apply okerr_bind; [apply read_exact_okerr|intros [a r] _; apply okerr_bind; [apply repr_okerr|intros v _; exact I]]).
      induction t as [e| | | |d|d|n|n args|el lc IH|len tg items _] using ty_ind'; intros m fenv en l S0 He O M; cbn [sd_type]; cbn [tsafe] in S0;
        try (apply halts_const, P); try (apply halts_const, R); try discriminate.
      - apply halts_const. eapply Hsf; [exact S0|constructor|exact O].
      - destruct (esafes fenv ienv args) as [ats|] eqn:Ea; [|discriminate]. destruct (evs_ok _ _ _ He _ Ea) as (vs & Ev & Hv). eapply halts_let; [exact Ev|]. cbv beta. unfold foreign_of in S0.
        assert (G : (match ann n with Some a => ales ats (an_par a) && ((an_rank a <? rank)%nat || (match m with Lt => true | _ => false end && (an_rank a =? rank)%nat)) | None => false end) = true -> halts (fun k => sd k n vs l)).
        { intros G. destruct (ann n) as [a|] eqn:En; [|discriminate]. apply andb_true_iff in G as (G1 & G2). pose proof (ales_has p F _ _ _ G1 Hv) as Hv'. apply orb_true_iff in G2 as [G2|G2].
          - apply Nat.ltb_lt in G2. eapply Hlow; eassumption.
          - apply andb_true_iff in G2 as (G2 & G3). apply Nat.eqb_eq in G3. destruct m; try discriminate. eapply Hsame; eassumption. }
        destruct (p n) as [[da dt dp]|]; [|apply G; exact S0]. destruct dt; try (apply G; exact S0). apply halts_const. eapply Hsf; eassumption.
      - destruct lc as [e| |e]; cbn [sd_arr].
        + destruct (esafe fenv ienv e) as [[s lo hi|]|] eqn:Ee; try discriminate. destruct (ev_ok _ _ _ _ Ee He) as (v & Ev & (z & -> & Rz & Bz)). eapply halts_let; [exact Ev|]. cbv beta.
          apply andb_true_iff in S0 as (S1 & S2). apply Z.leb_le in S1. destruct (kind_of (resolved p rf el)) as [pr|d|].
          * destruct pr as [| | |e0]; try discriminate;
              match goal with |- context [arr_size _ (prim_size ?q)] => apply Z.ltb_lt in S2; destruct (arr_size_safe (w_chk w) (prim_size q) z s ltac:(lia) (prim_size_pos q) ltac:(nia)) as (n & En); eapply halts_let; [exact En|]; cbv beta; apply halts_const, read_prims_okerr end.
          * apply Z.ltb_lt in S2. destruct (arr_size_safe (w_chk w) (size (es_scalar (repr_rep d))) z s ltac:(lia) (proj1 (size_bound _)) ltac:(nia)) as (n & En). eapply halts_let; [exact En|]. cbv beta. apply halts_const, read_reprs_okerr.
          * apply andb_true_iff in S2 as (S2 & S3). apply Z.ltb_lt in S2. destruct (len_safe s z ltac:(lia)) as (n & En). eapply halts_let; [exact En|]. cbv beta. apply halts_bind; [|intros [vs l1] _; apply halts_const; exact I].
            apply (times_halts (fun k => sd_type w p rf inp (sd k) en el) m); [intros l0 O0 M0; eapply IH; eassumption| |exact O|exact M]. intros k. eapply drops_weak. apply (sd_type_drops w p rf (sg_eat sg) eats Hf). intros; apply rec_drops.
        + destruct (kind_of (resolved p rf el)) as [pr|d|].
          * destruct pr; try discriminate; apply halts_const; exact I.
          * apply halts_const. apply okerr_bind; [apply mapM_okerr; apply repr_okerr|intros; exact I].
          * apply andb_true_iff in S0 as (S1 & S2). apply halts_bind; [|intros vs _; apply halts_const; exact I].
            apply (all_halts (fun k => sd_type w p rf inp (sd k) en el) m); [intros l0 O0 M0; eapply IH; eassumption| |exact O|exact M|lia]. intros k. rewrite <- S2. apply (sd_type_drops w p rf (sg_eat sg) eats Hf). intros; apply rec_drops.
        + destruct e; try discriminate. rewrite !andb_true_iff in S0. destruct S0 as (((S1 & S2) & S3) & S4). apply Nat.leb_le in S2.
          eapply halts_let; [reflexivity|]. cbv beta. eapply halts_let; [apply u8s_bytes|]. cbv beta. apply halts_bind; [|intros [vs l1] _; apply halts_const; exact I].
          apply (until_halts (w_fill w) b (fun k => sd_type w p rf inp (sd k) en el) m S2); [intros l0 O0 M0; eapply IH; eassumption| |exact O|exact M|lia]. intros k. rewrite <- S4. apply (sd_type_drops w p rf (sg_eat sg) eats Hf). intros; apply rec_drops.
    Qed.

    (** *** Transforms and limits *)
    Lemma xs_halts {A} fenv en (kk : nat -> list Z -> res ioerr (A * list Z)) a m l : forallb (xsafe p (w_fty w) sg fenv ienv) (fa_xs a) = true -> has_fields fenv en -> okl l -> mode_ok m l ->
      (forall l, okl l -> mode_ok (xmode a m) l -> halts (fun k => kk k l)) -> halts (fun k => sd_xs w inp en (rev (fa_xs a)) (kk k) l).
    Proof.
      intros Sx He O M H. unfold xmode in H. assert (Sr : forallb (xsafe p (w_fty w) sg fenv ienv) (rev (fa_xs a)) = true). { apply forallb_forall. intros x Hin. apply in_rev in Hin. rewrite forallb_forall in Sx. auto. }
      destruct (fa_xs a) as [|x0 xs0]; [cbn [rev sd_xs]; apply H; assumption|]. assert (H' : forall l, okl l -> halts (fun k => kk k l)) by (intros l0 O0; apply H; [exact O0|exact I]). clear H M Sx.
      revert l O. induction (rev (x0 :: xs0)) as [|x xs IH]; intros l O; cbn [sd_xs]; [apply H'; exact O|]. cbn [forallb] in Sr. apply andb_true_iff in Sr as (S1 & S2). unfold xsafe in S1. apply andb_true_iff in S1 as (S1 & S3).
      assert (exists b, (match x_cond x with Some e => let! v := ev w inp en e in bool_of v | None => Ok true end) = Ok b) as (b & Eb).
      { unfold bsafe in S1. destruct (x_cond x) as [e|]; [|eauto]. destruct (esafe fenv ienv e) as [c|] eqn:Ec; [|discriminate]. destruct (ebool _ _ _ _ Ec S1 He) as (b & ->). cbn. eauto. }
      eapply halts_let; [exact Eb|]. cbv beta. destruct b; [|apply IH; assumption]. destruct (esafes fenv ienv (x_args x)) as [ats|] eqn:Ea; [|discriminate]. destruct (evs_ok _ _ _ He _ Ea) as (vs & Ev & Hv). eapply halts_let; [exact Ev|]. cbv beta.
      apply halts_bind; [apply halts_const; eapply Hsx; eassumption|]. intros [pl rest] (_ & Ex). apply halts_bind; [apply IH; [exact S2|]; eapply HX; eassumption|]. intros [v r] _. apply halts_const. exact I.
    Qed.
    Lemma limit_halts {A} fenv en len (kk : nat -> list Z -> res ioerr (A * list Z)) m l : isafe p (w_fty w) sg fenv ienv len = true -> has_fields fenv en -> okl l -> mode_ok m l ->
      (forall l, okl l -> mode_ok m l -> halts (fun k => kk k l)) -> halts (fun k => sd_limit w inp en len (kk k) l).
    Proof.
      intros Sl He O M H. destruct len as [e|]; cbn [sd_limit]; [|apply H; assumption]. cbn [isafe] in Sl. destruct (esafe fenv ienv e) as [[s lo hi|]|] eqn:Ee; try discriminate. destruct (ev_ok _ _ _ _ Ee He) as (v & Ev & (z & -> & _)).
      eapply halts_let; [exact Ev|]. cbv beta. cbn [limit_of]. eapply halts_let; [reflexivity|]. cbv beta. set (n := Z.to_nat _).
      assert ((List.length (firstn n l) <= List.length l)%nat) by (rewrite firstn_length; lia).
      apply halts_bind; [apply H; [eapply okl_le; eassumption|eapply mode_le; eassumption]|]. intros [a r] _. apply halts_const. exact I.
    Qed.

    (** *** Fields *)
    Definition dcond (t : ty) : bool := match t with TCont _ _ items => forallb (fun f => data_field p rf false (fst f) (snd f)) items | _ => true end.
    Lemma data_dcond c a t : data_field p rf c a t = true -> fa_pad a = false -> dcond t = true.
    Proof.
      intros H Hp. destruct t; try reflexivity. cbn [data_field dcond] in *. rewrite Hp in H. apply andb_true_iff in H as (_ & H). apply forallb_forall. intros f Hin. rewrite forallb_forall in H. eapply data_field_weak. apply H. exact Hin.
    Qed.
    Definition chalts (a : fattr) (t : ty) : Prop := forall m fenv en l, csafe p rf (w_fty w) sg ann rank ienv m fenv a t = true -> (fa_pad a = false -> dcond t = true) -> has_fields fenv en -> okl l -> mode_ok m l ->
      halts (fun k => sd_complex w p rf inp (sd k) a t en l).
    Lemma field_halts a t m fenv en l : chalts a t -> attr_safe p (w_fty w) sg ienv a fenv = true -> csafe p rf (w_fty w) sg ann rank ienv (xmode a m) fenv a t = true -> data_field p rf false a t = true ->
      has_fields fenv en -> okl l -> mode_ok m l -> halts (fun k => sd_field w inp (sd_item w p rf inp (sd k) (a, t)) en l).
    Proof.
      intros H Sa Sc D He O M. unfold attr_safe in Sa. apply andb_true_iff in Sa as (S1 & S2). unfold sd_item, sd_field. cbn [fst snd].
      assert (B : halts (fun k => sd_xs w inp en (rev (fa_xs a)) (sd_complex w p rf inp (sd k) a t en) l)).
      { apply (xs_halts fenv en (fun k => sd_complex w p rf inp (sd k) a t en) a m); try assumption. intros l0 O0 M0. eapply H; try eassumption. intros Hp. eapply data_dcond; eassumption. }
      destruct (fa_cond a) as [e|]; [|exact B]. destruct (esafe fenv ienv e) as [c|] eqn:Ec; [|discriminate]. destruct (fa_pad a); cbn [orb] in S1.
      - destruct (ev_ok _ _ _ _ Ec He) as (v & Ev & _). eapply halts_let; [exact Ev|]. exact B.
      - destruct (ebool _ _ _ _ Ec S1 He) as (b & Eb). eapply halts_let; [exact Eb|]. cbv beta. cbn [bool_of bind]. destruct b; [|apply halts_const; exact I]. apply halts_bind; [exact B|]. intros [vs r] _. apply halts_const. exact I.
    Qed.
    Lemma item_typed k f : data_field p rf false (fst f) (snd f) = true -> typed_item w p rf F inp (sd k) f.
    Proof.
      intros D. assert (G : Forall (typed_item w p rf F inp (sd k)) [f]); [|inversion G; assumption].
      apply (all_items w p rf F Hf0 Hx HF HX Hwf inp (sd k)); [intros; apply rec_drops0|intros; eapply rec_has; eassumption|]. cbn. rewrite D. reflexivity.
    Qed.
    Lemma item_drops k f en : drops (field_eats p (sg_eat sg) eats f) (sd_field w inp (sd_item w p rf inp (sd k) f) en).
    Proof.
      apply (sd_field_drops w Hx inp (fst f) (snd f) (sd_complex w p rf inp (sd k) (fst f) (snd f)) (complex_eats p (sg_eat sg) eats (fst f) (snd f))).
      intros en0. apply (sd_complex_drops w p rf (sg_eat sg) eats Hf Hx). intros; apply rec_drops.
    Qed.
    Lemma items_halts items : Forall (fun f => chalts (fst f) (snd f)) items -> forall m fenv en l, isafes p rf (w_fty w) sg ann rank ienv m fenv items = true ->
      forallb (fun f => data_field p rf false (fst f) (snd f)) items = true -> has_fields fenv en -> okl l -> mode_ok m l ->
      halts (fun k => sd_items w inp (map (sd_item w p rf inp (sd k)) items) en l).
    Proof.
      induction 1 as [|[a t] items H _ IH]; intros m fenv en l Si D He O M; cbn [map sd_items]; [apply halts_const; exact I|]. cbn [isafes forallb fst snd] in *. rewrite !andb_true_iff in *. destruct Si as ((S1 & S2) & S3). destruct D as (D1 & D2).
      apply halts_bind; [eapply field_halts; eassumption|]. intros [vs l1] (k & E). apply halts_bind; [|intros [vs' l2] _; apply halts_const; exact I].
      destruct (item_typed k (a, t) D1) as (ts & G & T). cbn [fst snd] in G. eapply IH; [exact S3|exact D2| | |].
      - unfold scope. cbn [fst snd]. rewrite G. apply has_fields_app; [|exact He]. apply has_fields_rev. eapply T; eassumption.
      - eapply okl_drops; [apply (item_drops k)|exact E|exact O].
      - eapply mode_step; [apply (item_drops k)|exact E|exact M].
    Qed.
    Lemma isafes_go m fenv items : (fix go (m : mode) (fenv : list (string * rty)) (l : list (fattr * ty)) : bool :=
               match l with
               | [] => true
               | f :: l => attr_safe p (w_fty w) sg ienv (fst f) fenv && csafe p rf (w_fty w) sg ann rank ienv (xmode (fst f) m) fenv (fst f) (snd f)
                           && go (mstep m (field_eats p (sg_eat sg) eats f)) (scope p f fenv) l
               end) m fenv items = isafes p rf (w_fty w) sg ann rank ienv m fenv items.
    Proof. revert m fenv. induction items as [|f items IH]; intros m fenv; cbn [isafes]; [reflexivity|]. rewrite IH. reflexivity. Qed.
    Lemma complex_halts t : forall a, chalts a t.
    Proof.
      assert (P : forall t a, fa_pad a = true -> chalts a t).
      { intros t0 a Hp m fenv en l S0 _ He O M. destruct t0; cbn [csafe] in S0; rewrite Hp in S0; try discriminate. destruct l0; try discriminate. cbn [sd_complex]. rewrite Hp.
        destruct (esafe fenv ienv e) as [[s lo hi|]|] eqn:Ee; try discriminate. apply andb_true_iff in S0 as (S1 & S2). apply Z.leb_le in S1. apply Z.ltb_lt in S2. destruct (ev_ok _ _ _ _ Ee He) as (v & Ev & (z & -> & _ & B)). eapply halts_let; [exact Ev|]. cbv beta.
        destruct (len_safe s z ltac:(lia)) as (n & En). eapply halts_let; [exact En|]. cbv beta. apply halts_bind; [apply halts_const, read_exact_okerr|]. intros [b r] _. apply halts_const. exact I. }
      assert (Lf : forall t a, is_cont t = false -> chalts a t).
      { intros t0 a Hc. destruct (fa_pad a) eqn:Hp; [apply P; exact Hp|]. intros m fenv en l S0 _ He O M.
        assert (E : forall k, sd_complex w p rf inp (sd k) a t0 en l = (let! (v, l) := sd_type w p rf inp (sd k) en t0 l in Ok ([(fa_name a, v)], l))) by (intros k; rewrite sd_complex_leaf by (unfold leaf; cbn [fst snd]; rewrite Hp, Hc; reflexivity); reflexivity).
        assert (G : halts (fun k => let! (v, l) := sd_type w p rf inp (sd k) en t0 l in Ok ([(fa_name a, v)], l))).
        { apply halts_bind; [|intros [v r] _; apply halts_const; exact I]. eapply type_halts; [|exact He|exact O|exact M]. destruct t0; try discriminate Hc; cbn [csafe] in S0; rewrite Hp in S0; exact S0. }
        destruct G as (K & G1 & G2). exists K. split; [rewrite E; exact G1|]. intros k Hk. rewrite !E. apply G2. exact Hk. }
      induction t as [e| | | |d|d|n|n args|el lc IH|len tg items IH] using ty_ind'; intros a; try (apply Lf; reflexivity). destruct (fa_pad a) eqn:Hp; [apply P; exact Hp|].
      intros m fenv en l S0 D He O M. cbn [csafe] in S0. rewrite Hp in S0. rewrite !andb_true_iff in S0. destruct S0 as ((S1 & S2) & S3). rewrite isafes_go in S3. cbn [sd_complex]. rewrite Hp. destruct tg; [discriminate|].
      apply (limit_halts fenv en len (fun k => sd_items w inp (map (sd_item w p rf inp (sd k)) items) en) m); try assumption. intros l0 O0 M0. eapply items_halts; try eassumption; [|exact (D Hp)].
      eapply Forall_impl; [|exact IH]. intros f Hf'. apply Hf'.
    Qed.
    Lemma variants_halts name items : forall m l, forallb (vsafe p rf (w_fty w) sg ann rank ienv m) items = true -> forallb (fun f => dcond (snd f)) items = true -> okl l -> mode_ok m l ->
      halts (fun k => sd_variants w p rf inp (sd k) name items l).
    Proof.
      induction items as [|[a t] items IH]; intros m l S0 D O M; cbn [sd_variants]; [apply halts_const; exact I|]. cbn [forallb fst snd] in *. rewrite !andb_true_iff in *. destruct S0 as (S0 & S4). destruct D as (D1 & D2).
      unfold vsafe in S0. cbn [fst snd] in S0. rewrite !andb_true_iff in S0. destruct S0 as ((S1 & S2) & S3). apply negb_true_iff in S1. unfold attr_safe in S2. apply andb_true_iff in S2 as (S2 & S5).
      assert (exists b, (match fa_cond a with Some e => let! v := ev w inp [] e in bool_of v | None => Ok true end) = Ok b) as (b & Eb).
      { destruct (fa_cond a) as [e|]; [|eauto]. destruct (esafe [] ienv e) as [c|] eqn:Ec; [|discriminate]. rewrite S1 in S2. cbn [orb] in S2. destruct (ebool _ _ _ _ Ec S2 (HFnil p F)) as (b & ->). cbn. eauto. }
      eapply halts_let; [exact Eb|]. cbv beta. destruct b; [|eapply IH; eassumption]. apply halts_bind.
      - apply (xs_halts [] [] (fun k => sd_complex w p rf inp (sd k) a t []) a m); try assumption; [constructor|]. intros l0 O0 M0. eapply complex_halts; [exact S3|intros _; exact D1|constructor|exact O0|exact M0].
      - intros [vs l1] (k & E). destruct (is_cont t) eqn:Hc; [apply halts_const; exact I|]. destruct vs as [|[x v] vs]; [|apply halts_const; exact I]. exfalso.
        assert (X : forall xs l, okl l -> sd_xs w inp [] xs (sd_complex w p rf inp (sd k) a t []) l = Ok ([], l1) -> False).
        { clear E. intros xs l0 O0 E. eapply (xs_has w HX inp [] xs _ (fun vs => vs <> [])); [|exact O0|exact E|reflexivity]. intros l2 a2 r2 O2 E2.
          rewrite sd_complex_leaf in E2 by (unfold leaf; cbn [fst snd]; rewrite S1, Hc; reflexivity). bi E2 y Ey. destruct y as [u r']. apply Ok_inj in E2. injection E2 as <- <-. discriminate. }
        eapply X; eassumption.
    Qed.
    Lemma top_halts n d l : p n = Some d -> L = List.length l -> okl l -> forallb (xsafe p (w_fty w) sg [] ienv) (fa_xs (d_attr d)) = true ->
      body_safe p rf (w_fty w) sg ann rank ienv (xmode (d_attr d) Le) (d_ty d) = true -> halts (fun k => sd_top w p rf inp (sd k) d l).
    Proof.
      intros Ep EL O Sx Sb. pose proof (Hwf _ _ Ep) as W. unfold data_wf in W. apply andb_true_iff in W as (_ & W). unfold sd_top.
      apply (xs_halts [] [] (fun k l => match d_ty d with
      | TCont len true items => sd_limit w inp [] len (sd_variants w p rf inp (sd k) (fa_name (d_attr d)) items) l
      | TCont len false items => let! (vs, l) := sd_limit w inp [] len (sd_items w inp (map (sd_item w p rf inp (sd k)) items) []) l in Ok (VStruct (fa_name (d_attr d)) vs, l)
      | TEnum _ | TBits _ | TForeign _ => sd_type w p rf inp (sd k) [] (d_ty d) l
      | t => let! (v, l) := sd_type w p rf inp (sd k) [] t l in Ok (VTup v, l)
      end) (d_attr d) Le); [exact Sx|constructor|exact O|cbn; lia|]. clear l EL O. intros l O M. set (m := xmode (d_attr d) Le) in *.
      destruct (d_ty d) as [e| | | |e|e|f|m' args|el lc|len tg items] eqn:Et; cbn [body_safe] in Sb;
        try (eapply type_halts; [exact Sb|constructor|exact O|exact M]); try (apply halts_bind; [eapply type_halts; [exact Sb|constructor|exact O|exact M]|intros [v r] _; apply halts_const; exact I]).
      destruct tg; apply andb_true_iff in Sb as (S1 & S2).
      - apply (limit_halts [] [] len (fun k => sd_variants w p rf inp (sd k) (fa_name (d_attr d)) items) m); [exact S1|constructor|exact O|exact M|]. intros l0 O0 M0. eapply variants_halts; try eassumption.
        apply forallb_forall. intros [a t] Hin. rewrite forallb_forall in W. specialize (W _ Hin). cbn [snd] in *. destruct t; try reflexivity. apply andb_true_iff in W as (_ & W). exact W.
      - apply halts_bind; [|intros [v r] _; apply halts_const; exact I]. apply (limit_halts [] [] len (fun k => sd_items w inp (map (sd_item w p rf inp (sd k)) items) []) m); [exact S1|constructor|exact O|exact M|].
        intros l0 O0 M0. eapply items_halts; [|exact S2|exact W|constructor|exact O0|exact M0]. apply Forall_forall. intros f _. apply complex_halts.
    Qed.
  End Body.

  Lemma bind_plain ps : forall args acc, forallb (fun q => negb (is_some (pm_default q))) ps = true -> List.length ps = List.length args ->
    bind_params w ps args acc = Ok (rev (combine (map pm_name ps) args) ++ acc).
  Proof.
    induction ps as [|[n o] ps IH]; intros [|v args] acc H E; try discriminate E; [reflexivity|]. cbn [forallb pm_default] in H. apply andb_true_iff in H as (H1 & H2). destruct o; [discriminate|]. cbn [bind_params map combine rev pm_name].
    rewrite IH; [|exact H2|injection E as E; exact E]. rewrite <- app_assoc. reflexivity.
  Qed.
  Definition env2 (i : list (string * aty)) (e : list (string * val)) : Prop := Forall2 (fun a b => fst a = fst b /\ vhas (snd a) (snd b)) i e.
  Lemma env2_combine ns : forall as_ vs, Forall2 vhas as_ vs -> env2 (combine ns as_) (combine ns vs).
  Proof. induction ns as [|n ns IH]; intros as_ vs H; [constructor|]. destruct H; cbn [combine]; constructor; [split; [reflexivity|assumption]|]. apply IH. assumption. Qed.
  Lemma env2_rev i e : env2 i e -> env2 (rev i) (rev e).
  Proof. unfold env2. induction 1; cbn [rev]; [constructor|]. apply Forall2_app; [assumption|]. constructor; [assumption|constructor]. Qed.
  Lemma env2_lookup i e n a : env2 i e -> lookup n i = Some a -> exists v, lookup n e = Some v /\ vhas a v.
  Proof.
    unfold env2. induction 1 as [|[x a'] [y v] i e (E & V) _ IH]; [discriminate|]. cbn [fst snd] in *. subst y. rewrite !lookup_cons. destruct (String.eqb x n); [intros H; apply Some_inj in H; subst; eauto|exact IH].
  Qed.

  Lemma f2_length {A B} (R : A -> B -> Prop) la lb : Forall2 R la lb -> List.length la = List.length lb.
  Proof. induction 1; cbn; congruence. Qed.

  Theorem sdecode_halts n a vs l : ann n = Some a -> Forall2 vhas (an_par a) vs -> okl l -> halts (fun k => sd k n vs l).
  Proof.
    intros Ea Hv O. remember (an_rank a) as r eqn:Er. revert n a vs l Ea Er Hv O. induction r as [r IHr] using (well_founded_induction lt_wf). intros n a vs l Ea Er Hv O.
    remember (List.length l) as L eqn:EL. revert n a vs l Ea Er Hv O EL. induction L as [L IHL] using (well_founded_induction lt_wf). intros n a vs l Ea Er Hv O EL.
    destruct (Hann _ _ Ea) as (d & Ep & Fo & D). unfold decl_safe in D. rewrite !andb_true_iff in D. destruct D as (((D1 & D2) & (D3 & D4)) & _). apply Nat.eqb_eq in D2.
    apply halts_S. cbn [sdecode]. rewrite Ep. cbn [of_some bind]. assert (Lv : List.length (d_params d) = List.length vs) by (rewrite D2; eapply f2_length; exact Hv).
    rewrite (bind_plain _ _ _ D1 Lv). cbn [bind]. rewrite app_nil_r. eapply (top_halts r L); [| | |exact Ep|exact EL|exact O|exact D3|rewrite Er; exact D4].
    - intros x ax Ex. cbv beta. eapply env2_lookup; [|exact Ex]. apply env2_rev, env2_combine. exact Hv.
    - intros m am us l0 Em Rm Hu O0. eapply IHr; try eassumption. reflexivity.
    - intros m am us l0 Em Rm Hu O0 Ll. eapply (IHL (List.length l0)); try eassumption; try reflexivity. symmetry. exact Rm.
  Qed.
End Dec.
