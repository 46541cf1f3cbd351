(** The encoder's generator once more, with the iteration order of the one hash set in it left open.  blen_calls (coder/encode/container.rs:347-393) collects the fields of a formula's
    blen calls in a HashSet and returns its elements in the order the set iterates, which differs from run to run (std::collections::hash_map::RandomState).  Encode.v fixes the
    order of occurrence; here the order is any permutation, chosen anew for every set ([ord], given the number of registers allocated so far, which tells the sets whose order is used apart).
    The functions below are those of Encode.v with [ordered] put in; [ord_identity] shows that with the order of occurrence they are those of Encode.v. *)
From Verif Require Export Encode.
From Verif Require Import DecRef.
From Coq Require Import Permutation Lia.
Open Scope string_scope. Open Scope Z_scope. Open Scope list_scope.

Section OrdGen.
  Variable ord : nat -> list string -> list string.
  Variable p : program.
  Variable rfuel : nat.
  Definition ordered (l : list string) : egen (list string) := fun c => Some ([], ord (ec_rc c) l, c).

  (** container.rs:147-167. *)
  Fixpoint oflush (i : nat) (autos : list auto) (base : target) : egen (list auto) :=
    match i with
    | O => gret autos
    | S i =>
        match nth_error autos i with
        | None => gret autos
        | Some (buf, a, enc) =>
            match fa_calc a with
            | None => gfail
            | Some e =>
                match blen_calls e with
                | None => gfail
                | Some blens =>
                    do blens <- ordered blens;
                    do ok <- all_resolved blens;
                    if ok then
                      do r <- eval_blen blens (fa_name a) e;
                      let autos := remove_nth i autos in
                      let tgt := match nth_error autos i with Some (b, _, _) => TBuf b | None => base end in
                      do _ <- enc tgt r;
                      do _ <- tell (NEmitBuf tgt buf);
                      oflush i autos base
                    else oflush i autos base
                end
            end
        end
    end.
  (** container.rs:101-171. *)
  Fixpoint oitems (its : list eitem) (buf : target) (src : nat) (cond : bool) (autos : list auto) : egen unit :=
    match its with
    | [] => match autos with [] => gret tt | _ => gfail end
    | (a', t', k) :: its =>
        let field := fun tg sr => enc_field k a' t' (is_cont t') tg sr cond in
        let plain :=
          let real := auto_target autos buf in
          do _ <- (if is_cont t' || fa_pad a' then field real src
                   else do r <- efresh; do _ <- tell (NGetRef r (fa_name a')); field real r);
          do autos <- oflush (List.length autos) autos buf;
          oitems its buf src cond autos in
        match fa_calc a' with
        | Some e =>
            match blen_calls e with
            | None => gfail
            | Some [] => plain
            | Some blens =>
                do blens <- ordered blens;
                do ok <- all_resolved blens;
                do _ <- pend_all blens;
                if ok then do _ <- eval_blen blens (fa_name a') e; plain
                else
                  do b <- efresh;
                  do _ <- tell (NAllocDyn b);
                  oitems its buf src cond (autos ++ [(b, a', field)])
            end
        | None => plain
        end
    end.
  (** container.rs:200-253. *)
  Definition ovariant (name : string) (v : evitem) (buf : target) (src : nat) : egen unit :=
    let '(a', t', k, subs) := v in
    do unwrapped <- efresh;
    if is_cont t' then
      do rs <- enc_names (flatten_ty t');
      do _ <- tell (NUnwrapEnumS name (fa_name a') src rs);
      do _ <- enc_setrefs rs;
      do _ <- enc_calcs (flatten_ty t');
      do _ <- oitems subs buf src false [];
      tell NBreak
    else
      do _ <- tell (NUnwrapEnum name (fa_name a') src unwrapped);
      do _ <- enc_uncond k a' t' false buf unwrapped false false;
      tell NBreak.
  Fixpoint ovariants (name : string) (its : list evitem) (buf : target) (src : nat) : egen unit :=
    match its with
    | [] => gret tt
    | v :: its =>
        do c <- enc_cond (fst (fst (fst v)));
        do _ <- match c with
                | Some c => do (body, _) <- block (ovariant name v buf src); tell (NCond c body)
                | None => ovariant name v buf src
                end;
        ovariants name its buf src
    end.
  (** mod.rs:52-66, container.rs:171-279. *)
  Fixpoint ocomplex (top : bool) (a : fattr) (t : ty) (tgt : target) (src : nat) (conditional : bool) {struct t} : egen unit :=
    match t with
    | TCont len tagged items =>
        do buf <- match len with
                  | Some e =>
                      do b <- efresh;
                      do pend <- epending (fa_name a);
                      do _ <- (if pend then tell (NAllocDyn b) else do l <- eeval e; tell (NAllocBuf b l));
                      gret (Some b)
                  | None => gret None
                  end;
        let btgt := match buf with Some b => TBuf b | None => tgt end in
        do _ <- (if tagged then
                   let vs := map (fun f => (fst f, snd f, ocomplex false (fst f) (snd f),
                                            match snd f with
                                            | TCont _ _ sub => map (fun g => (fst g, snd g, ocomplex false (fst g) (snd g))) sub
                                            | _ => []
                                            end)) items in
                   do (body, _) <- block (ovariants (fa_name a) vs btgt src);
                   tell (NBreakBlock body)
                 else
                   let its := map (fun f => (fst f, snd f, ocomplex false (fst f) (snd f))) items in
                   do _ <- (if top then do _ <- enc_refs (flatten_items items) src; enc_calcs (flatten_items items)
                            else if conditional then enc_nullchecks items else gret tt);
                   oitems its btgt src conditional []);
        match buf with
        | Some b =>
            do pend <- epending (fa_name a);
            do _ <- (if pend then
                       do _ <- eunpend (fa_name a);
                       do r <- efresh;
                       do _ <- tell (NGetLen r b);
                       ers_insert (fa_name a) r
                     else gret tt);
            tell (NEmitBuf tgt b)
        | None => gret tt
        end
    | _ => enc_type p rfuel t tgt src
    end.
  (** field.rs:4-21. *)
  Definition otop (d : decl) : egen unit :=
    do top <- efresh;
    match d_ty d with
    | TForeign _ => gret tt
    | t =>
        do _ <- match t with
                | TCont _ _ _ | TEnum _ | TBits _ => gret tt
                | _ => tell (NGetField 0 0 [FTup])
                end;
        enc_field (ocomplex true (d_attr d) t) (d_attr d) t false TDirect top false
    end.
  Definition ord_code (d : decl) : option (list einstr) :=
    match otop d {| ec_rc := 0; ec_resolved := []; ec_pending := [] |} with
    | Some (is, _, _) => Some is
    | None => None
    end.
End OrdGen.
(** The generated encoders of a program, when the generator ran with the orders [ord]. *)
Fixpoint ord_encode (ord : nat -> list string -> list string) (w : world) (p : program) (rf : nat) (fuel : nat) (n : string) (args : list val) (v : val) : res ioerr (list Z) :=
  match fuel with
  | O => Hang
  | S fuel =>
      let! d := of_some (p n) in
      let! code := of_some (ord_code ord p rf d) in
      let! inp := bind_params w (d_params d) args [] in
      erun_top w (fun x => lookup x inp) (ord_encode ord w p rf fuel) code v
  end.
(** ** Code that does the same *)
Definition meq (m m' : rmap) : Prop := forall n, lookup n m = lookup n m'.
Definition bodies (i : einstr) : list einstr :=
  match i with NCondWrap _ l _ _ _ _ _ | NLoop _ _ l | NCond _ l | NBreakBlock l => l | _ => [] end.
Lemma einstr_ind_bodies (P : einstr -> Prop) : (forall i, Forall P (bodies i) -> P i) -> forall i, P i.
Proof.
  intros H. fix IH 1. intros i. apply H.
  assert (L : forall l, Forall P l) by (fix L 1; intros [|j l]; constructor; [apply IH|apply L]).
  destruct i; cbn; try apply L; constructor.
Qed.
Lemma escans_ext l : Forall (fun i => forall m m', meq m m' -> meq (escan i m) (escan i m')) l -> forall m m', meq m m' -> meq (escans l m) (escans l m').
Proof. induction 1 as [|i l H _ IH]; intros m m' E; cbn [escans]; [exact E|]. apply IH, H, E. Qed.
Lemma escan_ext i : forall m m', meq m m' -> meq (escan i m) (escan i m').
Proof.
  induction i as [i IH] using einstr_ind_bodies. intros m m' E. pose proof (escans_ext _ IH m m' E) as G.
  destruct i; cbn [bodies escan] in *; try exact E; try exact G. intros x. unfold lookup. cbn. destruct (String.eqb n x); [reflexivity|]. exact (E x).
Qed.
Section Ext.
  Variable w : world.
  Variable inputs : string -> option val.
  Variable rec rec' : string -> list val -> val -> res ioerr (list Z).
  Hypothesis Hrec : forall n vs v, rec n vs v = rec' n vs v.
  Notation erun := (erun w inputs rec). Notation eseq := (eseq w inputs rec).
  Notation erun' := (Encode.erun w inputs rec'). Notation eseq' := (Encode.eseq w inputs rec').
  Lemma eseq_ext l : Forall (fun i => forall m m' st, meq m m' -> erun m i st = erun' m' i st) l -> forall m m' st, meq m m' -> eseq m l st = eseq' m' l st.
  Proof. induction 1 as [|i l H _ IH]; intros m m' st E; cbn [Encode.eseq]; [reflexivity|]. rewrite (H m m' st E). destruct (erun' m' i st) as [[st'|st']| | |]; cbn [bind]; try reflexivity. apply IH, escan_ext, E. Qed.
  Lemma for_range_ext n f g : (forall i st, f i st = g i st) -> forall i st, for_range n i f st = for_range n i g st.
  Proof. intros H. induction n as [|n IH]; intros i st; cbn [for_range]; [reflexivity|]. rewrite H. destruct (g i st) as [[|]| | |]; cbn [bind]; try reflexivity. apply IH. Qed.
  (** The four instructions with code inside, when that code does the same. *)
  Lemma condwrap_same m m' l l' c s r o x args st : (forall st, eseq m l st = eseq' m' l' st) -> erun m (NCondWrap c l s r o x args) st = erun' m' (NCondWrap c l' s r o x args) st.
  Proof.
    intros G. change (erun m (NCondWrap c l s r o x args) st) with (let! cv := ereg c st in let! b := bool_of cv in if b then
          let! out := eseq m l st in match out with EBrk st => Ok (EBrk st) | ENext st' => let! vs := mapM (fun a => ereg a st') args in Ok (ENext (epush (Some r) (KAlias (Some o)) (epush (Some o) (KXf (key s) x vs []) (eleave st st')))) end
          else Ok (ENext (epush (Some r) (KAlias (key s)) (epush (Some o) KGone st)))). rewrite G. reflexivity.
  Qed.
  Lemma cond_same m m' l l' c st : (forall st, eseq m l st = eseq' m' l' st) -> erun m (NCond c l) st = erun' m' (NCond c l') st.
  Proof.
    intros G. change (erun m (NCond c l) st) with (let! cv := ereg c st in let! b := bool_of cv in if b then let! o := eseq m l st in match o with ENext st' => Ok (ENext (eleave st st')) | EBrk st' => Ok (EBrk st') end else Ok (ENext st)).
    rewrite G. reflexivity.
  Qed.
  Lemma block_same m m' l l' st : (forall st, eseq m l st = eseq' m' l' st) -> erun m (NBreakBlock l) st = erun' m' (NBreakBlock l') st.
  Proof. intros G. change (erun m (NBreakBlock l) st) with (let! o := eseq m l st in match o with ENext st' | EBrk st' => Ok (ENext (eleave st st')) end). rewrite G. reflexivity. Qed.
  Lemma loop_same m m' l l' i s st : (forall st, eseq m l st = eseq' m' l' st) -> erun m (NLoop i s l) st = erun' m' (NLoop i s l') st.
  Proof.
    intros G. change (erun m (NLoop i s l) st) with (let! v := ereg s st in match v with VInt sc z => for_range (Z.to_nat z) 0 (fun k st => let! o := eseq m l (elet i (VInt sc k) st) in
        match o with ENext st' => Ok (ENext (eleave st st')) | EBrk st' => Ok (EBrk st') end) st | _ => Panic end).
    change (erun' m' (NLoop i s l') st) with (let! v := ereg s st in match v with VInt sc z => for_range (Z.to_nat z) 0 (fun k st => let! o := eseq' m' l' (elet i (VInt sc k) st) in
        match o with ENext st' => Ok (ENext (eleave st st')) | EBrk st' => Ok (EBrk st') end) st | _ => Panic end).
    destruct (ereg s st) as [[]| | |]; cbn [bind]; try reflexivity. apply for_range_ext. intros k st'. rewrite G. reflexivity.
  Qed.
  Lemma erun_ext i : forall m m' st, meq m m' -> erun m i st = erun' m' i st.
  Proof.
    induction i as [i IH] using einstr_ind_bodies. intros m m' st E. pose proof (eseq_ext _ IH m m') as G.
    destruct i; cbn [bodies] in *; try reflexivity.
    - cbn [Encode.erun]. rewrite (eval_ext w inputs _ (fun n => match lookup n m' with Some r => assoc r (es_regs st) | None => None end)); [reflexivity|]. intros n. rewrite E. reflexivity.
    - cbn [Encode.erun]. rewrite E. reflexivity.
    - apply condwrap_same. intros. apply G, E.
    - cbn [Encode.erun]. destruct (mapM _ args) as [vs| | |]; cbn [bind]; try reflexivity. destruct (ereg src st) as [v| | |]; cbn [bind]; try reflexivity. rewrite Hrec. reflexivity.
    - apply loop_same. intros. apply G, E.
    - apply cond_same. intros. apply G, E.
    - apply block_same. intros. apply G, E.
  Qed.
End Ext.
(** Two pieces of code do the same, whatever runs before (with references [m] and [m']) and whatever the surroundings, and leave the same references. *)
Definition same (l l' : list einstr) : Prop := forall m m', meq m m' -> meq (escans l m) (escans l' m') /\
  forall w inputs rec rec' st, (forall n vs v, rec n vs v = rec' n vs v) -> eseq w inputs rec m l st = eseq w inputs rec' m' l' st.
Lemma same_refl l : same l l.
Proof.
  intros m m' E. split.
  - apply escans_ext; [|exact E]. apply Forall_forall. intros i _. apply escan_ext.
  - intros w inp rec rec' st R. apply eseq_ext; [|exact E]. apply Forall_forall. intros i _. apply erun_ext, R.
Qed.
Lemma same_app a a' b b' : same a a' -> same b b' -> same (a ++ b) (a' ++ b').
Proof.
  intros H G m m' E. destruct (H m m' E) as [H1 H2]. destruct (G _ _ H1) as [G1 G2].
  assert (S : forall l r m, escans (l ++ r) m = escans r (escans l m)) by (induction l as [|i l IH]; intros r q; cbn; [reflexivity|apply IH]).
  rewrite !S. split; [exact G1|]. intros w inp rec rec' st R.
  assert (Q : forall rec l r m st, eseq w inp rec m (l ++ r) st = let! o := eseq w inp rec m l st in match o with ENext st => eseq w inp rec (escans l m) r st | EBrk st => Ok (EBrk st) end).
  { intros rc. induction l as [|i l IH]; intros r q s; [reflexivity|]. cbn [app eseq escans]. destruct (erun w inp rc q i s) as [[s'|s']| | |]; cbn [bind]; try reflexivity. apply IH. }
  rewrite !Q, (H2 w inp rec rec' st R). destruct (eseq w inp rec' m' a' st) as [[s'|s']| | |]; cbn [bind]; try reflexivity. apply G2, R.
Qed.
Lemma same_one i i' : (forall m m', meq m m' -> meq (escan i m) (escan i' m') /\ forall w inputs rec rec' st, (forall n vs v, rec n vs v = rec' n vs v) -> erun w inputs rec m i st = erun w inputs rec' m' i' st) -> same [i] [i'].
Proof. intros H m m' E. destruct (H m m' E) as [H1 H2]. split; [exact H1|]. intros w inp rec rec' st R. cbn [eseq]. rewrite (H2 _ _ _ _ _ R). destruct (erun w inp rec' m' i' st) as [[|]| | |]; reflexivity. Qed.
Lemma same_cond c l l' : same l l' -> same [NCond c l] [NCond c l'].
Proof. intros H. apply same_one. intros m m' E. destruct (H m m' E) as [H1 H2]. split; [exact H1|]. intros. apply cond_same. intros. apply H2; assumption. Qed.
Lemma same_block l l' : same l l' -> same [NBreakBlock l] [NBreakBlock l'].
Proof. intros H. apply same_one. intros m m' E. destruct (H m m' E) as [H1 H2]. split; [exact H1|]. intros. apply block_same. intros. apply H2; assumption. Qed.
Lemma same_loop i s l l' : same l l' -> same [NLoop i s l] [NLoop i s l'].
Proof. intros H. apply same_one. intros m m' E. destruct (H m m' E) as [H1 H2]. split; [exact H1|]. intros. apply loop_same. intros. apply H2; assumption. Qed.
Lemma same_condwrap c l l' s r o x args : same l l' -> same [NCondWrap c l s r o x args] [NCondWrap c l' s r o x args].
Proof. intros H. apply same_one. intros m m' E. destruct (H m m' E) as [H1 H2]. split; [exact H1|]. intros. apply condwrap_same. intros. apply H2; assumption. Qed.

(** ** The two generators, step by step *)
(** Induction on types that also gives the hypothesis for the items of an item that is a container (the variants of a tagged container). *)
Definition subs_of (t : ty) : list (fattr * ty) := match t with TCont _ _ l => l | _ => [] end.
Lemma ty_deep_ind (P : ty -> Prop)
  (HS : forall e, P (TScalar e)) (H32 : P TF32) (H64 : P TF64) (HB : P TBool) (HE : forall d, P (TEnum d)) (HBf : forall d, P (TBits d)) (HF : forall n, P (TForeign n))
  (HR : forall n args, P (TRef n args)) (HA : forall el l, P el -> P (TArr el l))
  (HC : forall len tagged items, Forall (fun f => P (snd f) /\ Forall (fun g => P (snd g)) (subs_of (snd f))) items -> P (TCont len tagged items)) : forall t, P t.
Proof.
  intros t. enough (H : P t /\ Forall (fun g => P (snd g)) (subs_of t)) by apply H. induction t as [e| | | |d|d|f|n args|el l IH|len tg items IH] using ty_ind'; try (split; [auto|constructor]).
  - apply HA, IH.
  - split; [apply HC, IH|]. cbn [subs_of]. eapply Forall_impl; [|exact IH]. cbn. intros g Hg. apply Hg.
Qed.
Section Sim.
  (** A relation on the emitted code. *)
  Variable Rel : list einstr -> list einstr -> Prop.
  Hypothesis r_refl : forall l, Rel l l.
  Hypothesis r_app : forall a a' b b', Rel a a' -> Rel b b' -> Rel (a ++ b) (a' ++ b').
  Hypothesis r_cond : forall c l l', Rel l l' -> Rel [NCond c l] [NCond c l'].
  Hypothesis r_block : forall l l', Rel l l' -> Rel [NBreakBlock l] [NBreakBlock l'].
  Hypothesis r_loop : forall i s l l', Rel l l' -> Rel [NLoop i s l] [NLoop i s l'].
  Hypothesis r_condwrap : forall c l l' s r o x args, Rel l l' -> Rel [NCondWrap c l s r o x args] [NCondWrap c l' s r o x args].
  Variable ord : nat -> list string -> list string.
  Hypothesis o_perm : forall k l, Permutation l (ord k l).
  Hypothesis o_sets : forall k l f, Rel (map (fun n => NSetRef (blen_name n) (f n)) l) (map (fun n => NSetRef (blen_name n) (f n)) (ord k l)).

  Definition csim (c1 c2 : ectx) : Prop := ec_rc c1 = ec_rc c2 /\ ec_resolved c1 = ec_resolved c2 /\ forall n, mem n (ec_pending c1) = mem n (ec_pending c2).
  Definition rsim {A B} (R : A -> B -> Prop) (r1 : option (list einstr * A * ectx)) (r2 : option (list einstr * B * ectx)) : Prop :=
    match r1, r2 with Some (i1, a1, c1), Some (i2, a2, c2) => Rel i1 i2 /\ R a1 a2 /\ csim c1 c2 | None, None => True | _, _ => False end.
  Definition gsim {A B} (R : A -> B -> Prop) (g1 : egen A) (g2 : egen B) : Prop := forall c1 c2, csim c1 c2 -> rsim R (g1 c1) (g2 c2).
  Lemma s_ret {A B} (R : A -> B -> Prop) a b : R a b -> gsim R (gret a) (gret b).
  Proof. intros H c1 c2 C. split; [apply r_refl|]. split; assumption. Qed.
  Lemma s_fail {A B} (R : A -> B -> Prop) : gsim R gfail gfail.
  Proof. intros c1 c2 C. exact I. Qed.
  Lemma s_bind {A B A' B'} (R : A -> B -> Prop) (Q : A' -> B' -> Prop) m1 m2 f1 f2 : gsim R m1 m2 -> (forall a b, R a b -> gsim Q (f1 a) (f2 b)) -> gsim Q (gbind m1 f1) (gbind m2 f2).
  Proof.
    intros H G c1 c2 C. specialize (H c1 c2 C). unfold gbind, rsim in *. destruct (m1 c1) as [[[i1 a1] d1]|], (m2 c2) as [[[i2 a2] d2]|]; try contradiction; [|exact I].
    destruct H as (H1 & H2 & H3). specialize (G _ _ H2 d1 d2 H3). unfold rsim in G. destruct (f1 a1 d1) as [[[j1 b1] e1]|], (f2 a2 d2) as [[[j2 b2] e2]|]; try contradiction; [|exact I].
    destruct G as (G1 & G2 & G3). split; [apply r_app; assumption|]. split; assumption.
  Qed.
  Lemma s_bind' {A A' B'} (Q : A' -> B' -> Prop) (m1 m2 : egen A) f1 f2 : gsim eq m1 m2 -> (forall a, gsim Q (f1 a) (f2 a)) -> gsim Q (gbind m1 f1) (gbind m2 f2).
  Proof. intros H G. eapply s_bind; [exact H|]. intros a b <-. apply G. Qed.
  Lemma s_tell i j : Rel [i] [j] -> gsim eq (tell i) (tell j).
  Proof. intros H c1 c2 C. split; [exact H|]. split; [reflexivity|exact C]. Qed.
  Lemma s_same i : gsim eq (tell i) (tell i).
  Proof. apply s_tell, r_refl. Qed.
  Lemma s_block {A B} (R : A -> B -> Prop) m1 m2 : gsim R m1 m2 -> gsim (fun x y => Rel (fst x) (fst y) /\ R (snd x) (snd y)) (block m1) (block m2).
  Proof.
    intros H c1 c2 C. specialize (H c1 c2 C). unfold block, rsim in *. destruct (m1 c1) as [[[i1 a1] d1]|], (m2 c2) as [[[i2 a2] d2]|]; try contradiction; [|exact I].
    destruct H as (H1 & H2 & H3). split; [apply r_refl|]. split; [split; assumption|assumption].
  Qed.
  Lemma s_fresh : gsim eq efresh efresh.
  Proof. intros c1 c2 (C1 & C2 & C3). split; [apply r_refl|]. cbn. rewrite C1. split; [reflexivity|]. repeat split; cbn [ec_rc ec_resolved ec_pending]; congruence || assumption. Qed.
  Lemma s_resolved n : gsim eq (eresolved n) (eresolved n).
  Proof. intros c1 c2 (C1 & C2 & C3). split; [apply r_refl|]. rewrite C2. split; [reflexivity|]. repeat split; assumption. Qed.
  Lemma s_insert n r : gsim eq (ers_insert n r) (ers_insert n r).
  Proof. intros c1 c2 (C1 & C2 & C3). split; [apply r_refl|]. split; [reflexivity|]. repeat split; cbn [ec_rc ec_resolved ec_pending]; congruence || assumption. Qed.
  Lemma s_pending n : gsim eq (epending n) (epending n).
  Proof. intros c1 c2 (C1 & C2 & C3). split; [apply r_refl|]. rewrite C3. split; [reflexivity|]. repeat split; assumption. Qed.
  Lemma mem_filter n m l : mem n (filter (fun k => negb (String.eqb m k)) l) = mem n l && negb (String.eqb m n).
  Proof.
    unfold mem. induction l as [|x l IH]; cbn; [reflexivity|]. destruct (String.eqb_spec m x) as [->|N]; cbn; rewrite IH.
    - destruct (String.eqb_spec n x) as [->|]; cbn; [|reflexivity]. rewrite String.eqb_refl, andb_false_r. reflexivity.
    - destruct (String.eqb_spec n x) as [->|]; cbn; [|reflexivity]. destruct (String.eqb_spec m x); [congruence|reflexivity].
  Qed.
  Lemma s_unpend n : gsim eq (eunpend n) (eunpend n).
  Proof. intros c1 c2 (C1 & C2 & C3). split; [apply r_refl|]. split; [reflexivity|]. repeat split; cbn [ec_rc ec_resolved ec_pending]; try assumption. intros m. rewrite !mem_filter, C3. reflexivity. Qed.
  Ltac step := match goal with
    | |- gsim _ (gret _) (gret _) => apply s_ret; try reflexivity
    | |- gsim _ gfail gfail => apply s_fail
    | |- gsim _ efresh efresh => apply s_fresh
    | |- gsim _ (eresolved _) (eresolved _) => apply s_resolved
    | |- gsim _ (ers_insert _ _) (ers_insert _ _) => apply s_insert
    | |- gsim _ (epending _) (epending _) => apply s_pending
    | |- gsim _ (eunpend _) (eunpend _) => apply s_unpend
    | |- gsim _ (tell _) (tell _) => apply s_same
    | H : gsim _ ?a ?b |- gsim _ ?a ?b => exact H
    | |- gsim _ (gbind _ _) (gbind _ _) => eapply s_bind'; [|intros ?]
    | |- gsim _ (if ?b then _ else _) _ => destruct b
    | |- gsim _ (match ?b with _ => _ end) _ => destruct b
    | |- _ => reflexivity
    end.
  Lemma s_eval e : gsim eq (eeval e) (eeval e).
  Proof. unfold eeval. repeat step. Qed.
  Lemma s_evals l : gsim eq (eevals l) (eevals l).
  Proof. induction l as [|e l IH]; cbn [eevals]; [repeat step|]. eapply s_bind'; [apply s_eval|intros ?]. repeat step. Qed.
  Ltac ev := first [apply s_eval|apply s_evals].
  Variable p : program.
  Variable rf : nat.
  Lemma s_array rec el l tgt src : (forall r, gsim eq (rec r) (rec r)) -> gsim eq (enc_array p rf rec el l tgt src) (enc_array p rf rec el l tgt src).
  Proof.
    intros H. unfold enc_array. eapply s_bind'; [destruct l; repeat (ev || step)|intros tm]. eapply s_bind'; [destruct l; repeat (ev || step)|intros ln].
    destruct (match tm with None => kind_of (resolved p rf el) | Some _ => KLoop end); [step|step|].
    eapply s_bind; [apply s_block with (R := eq); repeat (apply H || step)|]. intros [b i] [b' i'] [Hb Hi]. cbn in Hb, Hi. subst i'.
    eapply s_bind'; [repeat step|intros r]. eapply s_bind'; [apply s_tell, r_loop, Hb|intros ?]. repeat step.
  Qed.
  Lemma s_type t : forall tgt src, gsim eq (enc_type p rf t tgt src) (enc_type p rf t tgt src).
  Proof.
    induction t as [e| | | |d|d|f|n args|el l IH|len tg items _] using ty_ind'; intros tgt src; cbn [enc_type]; try solve [repeat step].
    - eapply s_bind'; [ev|intros ?]. repeat step.
    - apply s_array. intros r. apply IH.
  Qed.
  Lemma s_xs xs : forall tgt, gsim eq (enc_xs xs tgt) (enc_xs xs tgt).
  Proof.
    induction xs as [|x xs IH]; intros tgt; cbn [enc_xs]; [step|]. eapply s_bind'; [destruct (x_cond x); repeat (ev || step)|intros [c|]].
    - eapply s_bind; [apply s_block with (R := eq); ev|]. intros [b a] [b' a'] [Hb Ha]. cbn in Hb, Ha. subst a'.
      do 2 (eapply s_bind'; [step|intros ?]). eapply s_bind'; [apply s_tell, r_condwrap, Hb|intros ?]. eapply s_bind'; [apply IH|intros [? ?]]. step.
    - eapply s_bind'; [ev|intros ?]. do 2 (eapply s_bind'; [step|intros ?]). eapply s_bind'; [apply IH|intros [? ?]]. step.
  Qed.
  Lemma s_ends l : gsim eq (enc_ends l) (enc_ends l).
  Proof. induction l as [|[s o] l IH]; cbn [enc_ends]; repeat step. Qed.
  (** Encoders of one item made by the two generators. *)
  Definition ksim (k k' : target -> nat -> bool -> egen unit) : Prop := forall tgt src b, gsim eq (k tgt src b) (k' tgt src b).
  Lemma s_uncond k k' a t pseudo tgt src sc tc : ksim k k' -> gsim eq (enc_uncond k a t pseudo tgt src sc tc) (enc_uncond k' a t pseudo tgt src sc tc).
  Proof.
    intros K. unfold enc_uncond. eapply s_bind'; [apply s_xs|intros [inner l]]. eapply s_bind'; [repeat step|intros s]. eapply s_bind'; [|intros ?; apply s_ends].
    destruct (fa_pad a); [|apply K]. destruct t; repeat (ev || step).
  Qed.
  Lemma s_cond a : gsim eq (enc_cond a) (enc_cond a).
  Proof. unfold enc_cond. destruct (fa_cond a); repeat (ev || step). Qed.
  Lemma s_field k k' a t pseudo tgt src cond : ksim k k' -> gsim eq (enc_field k a t pseudo tgt src cond) (enc_field k' a t pseudo tgt src cond).
  Proof.
    intros K. unfold enc_field. eapply s_bind'; [apply s_cond|intros [c|]]; [|apply s_uncond, K].
    eapply s_bind; [apply s_block, s_uncond, K|]. intros [b u] [b' u'] [Hb _]. apply s_tell, r_cond, Hb.
  Qed.
  Lemma s_refs l : forall src, gsim eq (enc_refs l src) (enc_refs l src).
  Proof. induction l as [|[a t] l IH]; intros src; cbn [enc_refs]; [step|]. destruct (_ || _); [apply IH|]. repeat (apply IH || step). Qed.
  Lemma s_nullchecks l : gsim eq (enc_nullchecks l) (enc_nullchecks l).
  Proof. induction l as [|[a t] l IH]; cbn [enc_nullchecks]; [step|]. destruct (_ || _); [apply IH|]. repeat (apply IH || step). Qed.
  Lemma s_calcs l : gsim eq (enc_calcs l) (enc_calcs l).
  Proof.
    induction l as [|[a t] l IH]; cbn [enc_calcs]; [step|]. destruct (fa_calc a) as [e|]; [|apply IH]. destruct (blen_calls e) as [[|]|]; [|apply IH|step].
    eapply s_bind'; [ev|intros ?]. repeat (apply IH || step).
  Qed.
  Lemma s_names l : gsim eq (enc_names l) (enc_names l).
  Proof. induction l as [|[a t] l IH]; cbn [enc_names]; [step|]. destruct (_ || _); [apply IH|]. repeat (apply IH || step). Qed.
  Lemma s_setrefs l : gsim eq (enc_setrefs l) (enc_setrefs l).
  Proof. induction l as [|[a t] l IH]; cbn [enc_setrefs]; [step|]. repeat (apply IH || step). Qed.

  (** Where the order matters: the elements are the same. *)
  Definition perm_of (l l' : list string) : Prop := exists k, l' = ord k l.
  Lemma s_ordered {A B} (Q : A -> B -> Prop) l g1 f2 : (forall l', perm_of l l' -> gsim Q g1 (f2 l')) -> gsim Q g1 (gbind (ordered ord l) f2).
  Proof.
    intros H c1 c2 C. specialize (H (ord (ec_rc c2) l) (ex_intro _ _ eq_refl) c1 c2 C). unfold gbind, ordered. destruct (f2 (ord (ec_rc c2) l) c2) as [[[i a] c]|]; exact H.
  Qed.
  Lemma all_resolved_eq l c : all_resolved l c = Some ([], forallb (fun n => match lookup n (ec_resolved c) with Some _ => true | None => false end) l, c).
  Proof. induction l as [|n l IH]; cbn [all_resolved forallb]; [reflexivity|]. unfold gbind, eresolved. rewrite IH. cbn. destruct (lookup n (ec_resolved c)); reflexivity. Qed.
  Lemma forallb_perm {A} (f : A -> bool) l l' : Permutation l l' -> forallb f l = forallb f l'.
  Proof. induction 1; cbn; try congruence. destruct (f x), (f y); reflexivity. Qed.
  Lemma s_all_resolved l l' : perm_of l l' -> gsim eq (all_resolved l) (all_resolved l').
  Proof.
    intros [k ->] c1 c2 (C1 & C2 & C3). rewrite !all_resolved_eq. split; [apply r_refl|]. rewrite C2. split; [apply forallb_perm, o_perm|]. repeat split; assumption.
  Qed.
  Lemma pend_all_eq l c : exists q, pend_all l c = Some ([], tt, {| ec_rc := ec_rc c; ec_resolved := ec_resolved c; ec_pending := q |}) /\
    forall n, mem n q = mem n (ec_pending c) || existsb (fun m => String.eqb n m && match lookup m (ec_resolved c) with Some _ => false | None => true end) l.
  Proof.
    revert c. induction l as [|m l IH]; intros c; cbn [pend_all existsb].
    - exists (ec_pending c). split; [destruct c; reflexivity|]. intros n. rewrite orb_false_r. reflexivity.
    - unfold gbind, eresolved. destruct (lookup m (ec_resolved c)) as [r|] eqn:E.
      + destruct (IH c) as (q & H & Q). exists q. unfold gret. rewrite H. split; [reflexivity|]. intros n. rewrite Q, andb_false_r. reflexivity.
      + unfold epend. destruct (IH {| ec_rc := ec_rc c; ec_resolved := ec_resolved c; ec_pending := m :: ec_pending c |}) as (q & H & Q). exists q. rewrite H. split; [reflexivity|].
        intros n. rewrite Q. cbn [ec_pending ec_resolved]. rewrite andb_true_r. change (mem n (m :: ec_pending c)) with (String.eqb n m || mem n (ec_pending c)). destruct (String.eqb n m), (mem n (ec_pending c)); reflexivity.
  Qed.
  Lemma existsb_perm {A} (f : A -> bool) l l' : Permutation l l' -> existsb f l = existsb f l'.
  Proof. induction 1; cbn; try congruence. destruct (f x), (f y); reflexivity. Qed.
  Lemma s_pend_all l l' : perm_of l l' -> gsim eq (pend_all l) (pend_all l').
  Proof.
    intros [k ->] c1 c2 (C1 & C2 & C3). destruct (pend_all_eq l c1) as (q1 & -> & Q1). destruct (pend_all_eq (ord k l) c2) as (q2 & -> & Q2). split; [apply r_refl|]. split; [reflexivity|].
    repeat split; try assumption. cbn [ec_pending]. intros n. rewrite Q1, Q2, C2, C3. f_equal. apply existsb_perm, o_perm.
  Qed.
  Lemma set_blens_eq l c : set_blens l c = if forallb (fun n => match lookup n (ec_resolved c) with Some _ => true | None => false end) l
    then Some (map (fun n => NSetRef (blen_name n) (match lookup n (ec_resolved c) with Some r => r | None => 0%nat end)) l, tt, c) else None.
  Proof.
    induction l as [|n l IH]; cbn [set_blens forallb map]; [reflexivity|]. unfold gbind, eresolved. destruct (lookup n (ec_resolved c)) as [r|]; [|reflexivity]. unfold tell. rewrite IH. cbn [andb].
    destruct (forallb _ l); reflexivity.
  Qed.
  Lemma s_set_blens l l' : perm_of l l' -> gsim eq (set_blens l) (set_blens l').
  Proof.
    intros [k ->] c1 c2 (C1 & C2 & C3). rewrite !set_blens_eq, C2. rewrite <- (forallb_perm _ _ _ (o_perm k l)). destruct (forallb _ l); [|exact I].
    split; [apply o_sets|]. split; [reflexivity|]. repeat split; assumption.
  Qed.
  Lemma rewrite_blen_mem known known' e : (forall n, mem n known = mem n known') -> rewrite_blen known e = rewrite_blen known' e.
  Proof.
    intros H. induction e as [op a b IH1 IH2|op a IH|a t IH|a b IH1 IH2|d v z|d v z|z|n t v|n t|n t|b|c a b IH1 IH2 IH3|b|fn args IH|a f z IH] using expr_ind'; cbn [rewrite_blen]; try reflexivity;
      try (rewrite ?IH1, ?IH2, ?IH3, ?IH; reflexivity).
    assert (G : (fix go l := match l with [] => Some [] | x :: l => match rewrite_blen known x, go l with Some x, Some l => Some (x :: l) | _, _ => None end end) args =
      (fix go l := match l with [] => Some [] | x :: l => match rewrite_blen known' x, go l with Some x, Some l => Some (x :: l) | _, _ => None end end) args).
    { induction IH as [|x l Hx _ IH]; [reflexivity|]. rewrite Hx, IH. reflexivity. }
    rewrite G. match goal with |- match ?g with _ => _ end = _ => destruct g as [l|]; [|reflexivity] end. destruct (String.eqb fn "blen"); [|reflexivity]. destruct l as [|[] l]; try reflexivity. rewrite H. reflexivity.
  Qed.
  Lemma s_eval_blen l l' n e : perm_of l l' -> gsim eq (eval_blen l n e) (eval_blen l' n e).
  Proof.
    intros P. unfold eval_blen. eapply s_bind'; [apply s_set_blens, P|intros ?]. destruct P as [k ->]. rewrite (rewrite_blen_mem l (ord k l)).
    - destruct (rewrite_blen (ord k l) e); [|step]. eapply s_bind'; [ev|intros r]. repeat step.
    - intros m. unfold mem. apply existsb_perm, o_perm.
  Qed.
  (** Fields that wait. *)
  Definition asim (x y : auto) : Prop := fst x = fst y /\ forall tgt r, gsim eq (snd x tgt r) (snd y tgt r).
  Lemma asim_nth l l' i : Forall2 asim l l' -> match nth_error l i, nth_error l' i with Some x, Some y => asim x y | None, None => True | _, _ => False end.
  Proof. intros H. revert i. induction H as [|x y l l' H _ IH]; intros [|i]; cbn; auto. apply IH. Qed.
  Lemma asim_remove l l' i : Forall2 asim l l' -> Forall2 asim (remove_nth i l) (remove_nth i l').
  Proof. intros H. revert i. induction H as [|x y l l' H G IH]; intros [|i]; cbn [remove_nth]; auto. Qed.
  Lemma asim_length l l' : Forall2 asim l l' -> List.length l = List.length l'.
  Proof. induction 1; cbn; congruence. Qed.
  Lemma asim_rev l l' : Forall2 asim l l' -> Forall2 asim (rev l) (rev l').
  Proof. induction 1 as [|x y l l' H _ IH]; cbn [rev]; [constructor|]. apply Forall2_app; [exact IH|]. constructor; [exact H|constructor]. Qed.
  Lemma asim_target l l' b : Forall2 asim l l' -> auto_target l b = auto_target l' b.
  Proof.
    intros H. unfold auto_target. apply asim_rev in H. destruct H as [|x y]; [reflexivity|]. destruct H as [H _]. destruct x as [[bx ?] ?], y as [[by' ?] ?]. cbn in H. injection H as -> _. reflexivity.
  Qed.
  Lemma s_flush i : forall autos autos' base, Forall2 asim autos autos' -> gsim (Forall2 asim) (flush_autos i autos base) (oflush ord i autos' base).
  Proof.
    induction i as [|i IH]; intros autos autos' base A; cbn [flush_autos oflush]; [apply s_ret, A|]. pose proof (asim_nth _ _ i A) as N.
    destruct (nth_error autos i) as [[[b a] enc]|], (nth_error autos' i) as [[[b' a'] enc']|]; try contradiction; [|apply s_ret, A]. destruct N as [N K]. cbn [fst snd] in N, K. injection N as <- <-.
    destruct (fa_calc a) as [e|]; [|apply s_fail]. destruct (blen_calls e) as [blens|]; [|apply s_fail].
    apply s_ordered. intros l' P. eapply s_bind'; [apply s_all_resolved, P|intros [|]]; [|apply IH, A]. eapply s_bind'; [apply s_eval_blen, P|intros r]. cbv zeta.
    pose proof (asim_remove _ _ i A) as A'. pose proof (asim_nth _ _ i A') as N.
    assert (T : match nth_error (remove_nth i autos) i with Some (b0, _, _) => TBuf b0 | None => base end = match nth_error (remove_nth i autos') i with Some (b0, _, _) => TBuf b0 | None => base end).
    { destruct (nth_error (remove_nth i autos) i) as [[[]]|], (nth_error (remove_nth i autos') i) as [[[]]|]; try contradiction; [|reflexivity]. destruct N as [N _]. cbn in N. congruence. }
    rewrite <- T. eapply s_bind'; [apply K|intros ?]. eapply s_bind'; [step|intros ?]. apply IH, A'.
  Qed.
  Definition isim (x y : eitem) : Prop := fst x = fst y /\ ksim (snd x) (snd y).
  Lemma s_items its its' : Forall2 isim its its' -> forall buf src cond autos autos', Forall2 asim autos autos' -> gsim eq (enc_items its buf src cond autos) (oitems ord its' buf src cond autos').
  Proof.
    induction 1 as [|[[a t] k] [[a' t'] k'] its its' [E K] H IH]; intros buf src cond autos autos' A; cbn [enc_items oitems].
    - destruct A; [apply s_ret; reflexivity|apply s_fail].
    - cbn [fst snd] in E, K. injection E as <- <-.
      assert (F : forall tg sr, gsim eq (enc_field k a t (is_cont t) tg sr cond) (enc_field k' a t (is_cont t) tg sr cond)) by (intros; apply s_field, K).
      assert (Plain : gsim eq
        (do _ <- (if is_cont t || fa_pad a then enc_field k a t (is_cont t) (auto_target autos buf) src cond
                  else do r <- efresh; do _ <- tell (NGetRef r (fa_name a)); enc_field k a t (is_cont t) (auto_target autos buf) r cond);
         do autos <- flush_autos (List.length autos) autos buf; enc_items its buf src cond autos)
        (do _ <- (if is_cont t || fa_pad a then enc_field k' a t (is_cont t) (auto_target autos' buf) src cond
                  else do r <- efresh; do _ <- tell (NGetRef r (fa_name a)); enc_field k' a t (is_cont t) (auto_target autos' buf) r cond);
         do autos <- oflush ord (List.length autos') autos' buf; oitems ord its' buf src cond autos)).
      { rewrite <- (asim_target _ _ buf A). rewrite <- (asim_length _ _ A). eapply s_bind'; [destruct (is_cont t || fa_pad a); [apply F|]; do 2 (eapply s_bind'; [step|intros ?]); apply F|intros ?].
        eapply s_bind; [apply s_flush, A|]. intros l l' L. apply IH, L. }
      destruct (fa_calc a) as [e|]; [|exact Plain]. destruct (blen_calls e) as [[|b0 bs]|]; [exact Plain| |apply s_fail]. 
      apply s_ordered. intros l' P. eapply s_bind'; [apply s_all_resolved, P|intros ok]. eapply s_bind'; [apply s_pend_all, P|intros ?]. destruct ok.
      + eapply s_bind'; [apply s_eval_blen, P|intros ?]. exact Plain.
      + do 2 (eapply s_bind'; [step|intros ?]). apply IH. apply Forall2_app; [exact A|]. constructor; [|constructor]. split; [reflexivity|]. intros tg r. apply F.
  Qed.
  Definition vsim (x y : evitem) : Prop := fst (fst x) = fst (fst y) /\ ksim (snd (fst x)) (snd (fst y)) /\ Forall2 isim (snd x) (snd y).
  Lemma s_variant name v v' buf src : vsim v v' -> gsim eq (enc_variant name v buf src) (ovariant ord name v' buf src).
  Proof.
    destruct v as [[[a t] k] subs], v' as [[[a' t'] k'] subs']. intros (E & K & S). cbn [fst snd] in E, K, S. injection E as <- <-. cbn [enc_variant ovariant].
    eapply s_bind'; [step|intros ?]. destruct (is_cont t).
    - eapply s_bind'; [apply s_names|intros rs]. eapply s_bind'; [step|intros ?]. eapply s_bind'; [apply s_setrefs|intros ?]. eapply s_bind'; [apply s_calcs|intros ?].
      eapply s_bind'; [apply s_items; [exact S|constructor]|intros ?]. step.
    - eapply s_bind'; [step|intros ?]. eapply s_bind'; [apply s_uncond, K|intros ?]. step.
  Qed.
  Lemma s_variants name vs vs' : Forall2 vsim vs vs' -> forall buf src, gsim eq (enc_variants name vs buf src) (ovariants ord name vs' buf src).
  Proof.
    induction 1 as [|v v' vs vs' V H IH]; intros buf src; cbn [enc_variants ovariants]; [step|]. destruct V as (E & V). rewrite <- E.
    eapply s_bind'; [apply s_cond|intros [c|]]; (eapply s_bind'; [|intros ?; apply IH]).
    - eapply s_bind; [apply s_block, s_variant; split; assumption|]. intros [b u] [b' u'] [Hb _]. apply s_tell, r_cond, Hb.
    - apply s_variant. split; assumption.
  Qed.
  Lemma s_complex t : forall top a tgt src cond, gsim eq (enc_complex p rf top a t tgt src cond) (ocomplex ord p rf top a t tgt src cond).
  Proof.
    induction t as [e| | | |d|d|f|n args|el l _|len tg items IH] using ty_deep_ind; intros top a tgt src cond; cbn [enc_complex ocomplex]; try apply s_type.
    eapply s_bind'; [destruct len; [|step]; eapply s_bind'; [step|intros ?]; eapply s_bind'; [step|intros [|]]; (eapply s_bind'; [|intros ?; step]); [step|eapply s_bind'; [ev|intros ?]; step]|].
    intros buf. cbv zeta. eapply s_bind'; [|intros ?; destruct buf; [|step]; eapply s_bind'; [step|intros [|]]; (eapply s_bind'; [|intros ?; step]); repeat step].
    destruct tg.
    - eapply s_bind; [apply s_block with (R := eq), s_variants|].
      + clear -IH. induction IH as [|[fa ft] items H _ IHl]; cbn [map]; constructor; [|exact IHl]. split; [reflexivity|]. cbn [fst snd] in *. destruct H as [H1 H2]. split; [intros ? ? ?; apply H1|].
        destruct ft; try constructor. cbn [subs_of snd] in H2. clear -H2. induction H2 as [|[ga gt] l H _ IHl]; cbn [map]; constructor; [|exact IHl]. split; [reflexivity|]. intros ? ? ?. apply H.
      + intros [b u] [b' u'] [Hb _]. apply s_tell, r_block, Hb.
    - eapply s_bind'; [destruct top; [eapply s_bind'; [apply s_refs|intros ?; apply s_calcs]|destruct cond; [apply s_nullchecks|step]]|intros ?].
      apply s_items; [|constructor]. clear -IH. induction IH as [|[fa ft] items H _ IHl]; cbn [map]; constructor; [|exact IHl]. split; [reflexivity|]. intros ? ? ?. apply H.
  Qed.
  Lemma s_top d : match enc_code p rf d, ord_code ord p rf d with Some l, Some l' => Rel l l' | None, None => True | _, _ => False end.
  Proof.
    assert (S : gsim eq (enc_top p rf d) (otop ord p rf d)).
    { unfold enc_top, otop. eapply s_bind'; [step|intros top].
      assert (G : gsim eq (enc_field (enc_complex p rf true (d_attr d) (d_ty d)) (d_attr d) (d_ty d) false TDirect top false) (enc_field (ocomplex ord p rf true (d_attr d) (d_ty d)) (d_attr d) (d_ty d) false TDirect top false)).
      { apply s_field. intros ? ? ?. apply s_complex. }
      destruct (d_ty d); try (eapply s_bind'; [step|intros ?; exact G]). step. }
    specialize (S {| ec_rc := 0; ec_resolved := []; ec_pending := [] |} {| ec_rc := 0; ec_resolved := []; ec_pending := [] |}). unfold enc_code, ord_code, rsim in *.
    assert (C : csim {| ec_rc := 0; ec_resolved := []; ec_pending := [] |} {| ec_rc := 0; ec_resolved := []; ec_pending := [] |}) by (repeat split; reflexivity). specialize (S C).
    destruct (enc_top p rf d _) as [[[? ?] ?]|], (otop ord p rf d _) as [[[? ?] ?]|]; try contradiction; [apply S|exact I].
  Qed.
End Sim.
