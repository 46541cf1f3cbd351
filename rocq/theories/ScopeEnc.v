(** C30, encoder. *)
From Verif Require Import Base Scalar EnumBits Expr Asg Gen Decode Encode Spec DecRef EncWf EncRef ScopeSpec ScopeDec.
From Coq Require Import Lia Bool Permutation.
Open Scope string_scope. Open Scope Z_scope. Open Scope list_scope.

(** ** Registers only grow. *)
Definition mono {A} (g : egen A) : Prop := forall c is a c', g c = Some (is, a, c') -> (ec_rc c <= ec_rc c')%nat.
Lemma m_ret {A} (a : A) : mono (gret a). Proof. intros c is b c' H. injection H as <- <- <-. lia. Qed.
Lemma m_fail {A} : @mono A gfail. Proof. intros c is b c' H. discriminate H. Qed.
Lemma m_tell i : mono (tell i). Proof. intros c is b c' H. injection H as <- <- <-. lia. Qed.
Lemma m_fresh : mono efresh. Proof. intros c is b c' H. injection H as <- <- <-. cbn. lia. Qed.
Lemma m_bind {A B} (g : egen A) (f : A -> egen B) : mono g -> (forall a, mono (f a)) -> mono (gbind g f).
Proof. intros G F c is b c' H. bnd H i a c1 j E. specialize (G _ _ _ _ E). specialize (F a _ _ _ _ H). lia. Qed.
Lemma m_block {A} (g : egen A) : mono g -> mono (block g).
Proof. intros G c is b c' H. apply block_some in H as (i & a & E & _). exact (G _ _ _ _ E). Qed.
Lemma m_resolved n : mono (eresolved n). Proof. intros c is b c' H. injection H as <- <- <-. lia. Qed.
Lemma m_pending n : mono (epending n). Proof. intros c is b c' H. injection H as <- <- <-. lia. Qed.
Lemma m_pend n : mono (epend n). Proof. intros c is b c' H. injection H as <- <- <-. cbn. lia. Qed.
Lemma m_unpend n : mono (eunpend n). Proof. intros c is b c' H. injection H as <- <- <-. cbn. lia. Qed.
Lemma m_insert n r : mono (ers_insert n r). Proof. intros c is b c' H. injection H as <- <- <-. cbn. lia. Qed.
Create HintDb mono.
#[export] Hint Resolve m_ret m_fail m_tell m_fresh m_resolved m_pending m_pend m_unpend m_insert : mono.
Ltac mono := repeat first [ solve [auto with mono] | apply m_bind; intros | apply m_block | match goal with |- mono (match ?x with _ => _ end) => destruct x end ].
Lemma m_eval e : mono (eeval e). Proof. unfold eeval. mono. Qed.
#[export] Hint Resolve m_eval : mono.
Lemma m_evals l : mono (eevals l). Proof. induction l; cbn [eevals]; mono. Qed.
#[export] Hint Resolve m_evals : mono.
Lemma m_array p rf rec el l tgt src : (forall i, mono (rec i)) -> mono (enc_array p rf rec el l tgt src).
Proof. intros R. unfold enc_array. mono. Qed.
Lemma m_type p rf t : forall tgt src, mono (enc_type p rf t tgt src).
Proof.
  induction t using ty_ind'; intros tgt src; cbn [enc_type]; try solve [mono].
Qed.
#[export] Hint Resolve m_type : mono.
Lemma m_xs xs : forall tgt, mono (enc_xs xs tgt). Proof. induction xs; intros tgt; cbn [enc_xs]; mono. Qed.
Lemma m_ends l : mono (enc_ends l). Proof. induction l as [|[s o] l IH]; cbn [enc_ends]; mono. Qed.
#[export] Hint Resolve m_xs m_ends : mono.
Lemma m_uncond k a t ps tgt src sc tc : (forall x y z, mono (k x y z)) -> mono (enc_uncond k a t ps tgt src sc tc).
Proof. intros K. unfold enc_uncond. mono. Qed.
Lemma m_cond a : mono (enc_cond a). Proof. unfold enc_cond. mono. Qed.
#[export] Hint Resolve m_cond : mono.
Lemma m_field k a t ps tgt src co : (forall x y z, mono (k x y z)) -> mono (enc_field k a t ps tgt src co).
Proof. intros K. unfold enc_field. mono; apply m_uncond, K. Qed.
Lemma m_refs l src : mono (enc_refs l src). Proof. induction l as [|[a t] l IH]; cbn [enc_refs]; mono. Qed.
Lemma m_nullchecks l : mono (enc_nullchecks l). Proof. induction l as [|[a t] l IH]; cbn [enc_nullchecks]; mono. Qed.
Lemma m_calcs l : mono (enc_calcs l). Proof. induction l as [|[a t] l IH]; cbn [enc_calcs]; mono. Qed.
Lemma m_setblens l : mono (set_blens l). Proof. induction l; cbn [set_blens]; mono. Qed.
#[export] Hint Resolve m_refs m_nullchecks m_calcs m_setblens : mono.
Lemma m_evalblen b n e : mono (eval_blen b n e). Proof. unfold eval_blen. mono. Qed.
Lemma m_allres l : mono (all_resolved l). Proof. induction l; cbn [all_resolved]; mono. Qed.
Lemma m_pendall l : mono (pend_all l). Proof. induction l; cbn [pend_all]; mono. Qed.
#[export] Hint Resolve m_evalblen m_allres m_pendall : mono.
Definition m_autos (autos : list auto) : Prop := forall b a f, In (b, a, f) autos -> forall x y, mono (f x y).
Lemma remove_nth_in {A} (l : list A) : forall i x, In x (remove_nth i l) -> In x l.
Proof. induction l as [|y l IH]; intros [|i] x I; cbn in *; auto. destruct I as [->|I]; [auto|right; eapply IH, I]. Qed.
Lemma m_flush i : forall autos base, m_autos autos -> mono (flush_autos i autos base).
Proof.
  induction i as [|i IH]; intros autos base HA; cbn [flush_autos]; [mono|].
  destruct (nth_error autos i) as [[[b a] f]|] eqn:E; [|mono]. apply nth_error_In in E.
  destruct (fa_calc a); [|mono]. destruct (blen_calls e) as [bl|]; [|mono]. apply m_bind; [mono|]. intros []; [|apply IH, HA].
  apply m_bind; [mono|]. intros r. apply m_bind; [eapply HA; exact E|]. intros _. apply m_bind; [mono|]. intros _. apply IH. intros b' a' f' I. eapply HA, remove_nth_in, I.
Qed.
Lemma flush_autos_in i : forall autos base c is autos' c', flush_autos i autos base c = Some (is, autos', c') -> incl autos' autos.
Proof.
  induction i as [|i IH]; intros autos base c is autos' c' H; cbn [flush_autos] in H; [injection H as <- <- <-; apply incl_refl|].
  destruct (nth_error autos i) as [[[b a] f]|] eqn:E; [|injection H as <- <- <-; apply incl_refl].
  destruct (fa_calc a); [|discriminate H]. destruct (blen_calls e) as [bl|]; [|discriminate H]. bnd H i1 ok c1 j1 E1. destruct ok; [|eapply IH, H].
  bnd H i2 r c2 j2 E2. bnd H i3 u3 c3 j3 E3. bnd H i4 u4 c4 j4 E4. apply IH in H. intros x I. eapply remove_nth_in, H, I.
Qed.
Lemma m_items its buf src co : (forall a t k, In (a, t, k) its -> forall x y z, mono (k x y z)) -> forall autos, m_autos autos -> mono (enc_items its buf src co autos).
Proof.
  induction its as [|[[a t] k] its IH]; intros HK autos HA; cbn [enc_items]; [destruct autos; mono|].
  assert (Kk : forall x y z, mono (k x y z)) by (eapply HK; left; reflexivity). assert (HK' : forall a t k, In (a, t, k) its -> forall x y z, mono (k x y z)) by (intros; eapply HK; right; eassumption).
  assert (P : mono (gbind (if is_cont t || fa_pad a then enc_field k a t (is_cont t) (auto_target autos buf) src co else gbind efresh (fun r => gbind (tell (NGetRef r (fa_name a))) (fun _ => enc_field k a t (is_cont t) (auto_target autos buf) r co)))
    (fun _ => gbind (flush_autos (List.length autos) autos buf) (fun autos => enc_items its buf src co autos)))).
  { apply m_bind; [destruct (is_cont t || fa_pad a); mono; apply m_field, Kk|]. intros _. intros c is x c' H. bnd H i1 au c1 j1 E1. pose proof (flush_autos_in _ _ _ _ _ _ _ E1) as In1.
    apply (m_flush _ _ _ HA) in E1. apply IH in H; [lia|exact HK'|]. intros b a' f I. eapply HA, In1, I. }
  destruct (fa_calc a); [|exact P]. destruct (blen_calls e) as [[|b0 bl]|]; [exact P| |mono].
  apply m_bind; [mono|]. intros ok. apply m_bind; [mono|]. intros _. destruct ok; [apply m_bind; [mono|]; intros _; exact P|].
  apply m_bind; [mono|]. intros b. apply m_bind; [mono|]. intros _. apply IH; [exact HK'|]. intros b' a' f I. apply in_app_or in I as [I|[I|[]]]; [eapply HA, I|]. injection I as <- <- <-. intros x y. apply m_field, Kk.
Qed.
Lemma m_names l : mono (enc_names l). Proof. induction l as [|[a t] l IH]; cbn [enc_names]; mono. Qed.
Lemma m_setrefs l : mono (enc_setrefs l). Proof. induction l as [|[a t] l IH]; cbn [enc_setrefs]; mono. Qed.
#[export] Hint Resolve m_names m_setrefs : mono.
Lemma m_variant n a t k subs buf src : (forall x y z, mono (k x y z)) -> (forall a t k, In (a, t, k) subs -> forall x y z, mono (k x y z)) -> mono (enc_variant n (a, t, k, subs) buf src).
Proof.
  intros K HS. unfold enc_variant. apply m_bind; [mono|]. intros u. destruct (is_cont t).
  - apply m_bind; [mono|]. intros rs. do 3 (apply m_bind; [mono|]; intros _). apply m_bind; [|intros _; mono]. apply m_items; [exact HS|]. intros ? ? ? [].
  - apply m_bind; [mono|]. intros _. apply m_bind; [apply m_uncond, K|]. intros _. mono.
Qed.
Lemma m_variants n its buf src : (forall v, In v its -> mono (enc_variant n v buf src)) -> mono (enc_variants n its buf src).
Proof.
  induction its as [|v its IH]; intros HV; cbn [enc_variants]; [mono|]. apply m_bind; [mono|]. intros c. apply m_bind; [|intros _; apply IH; intros; apply HV; right; assumption].
  destruct c; [apply m_bind; [apply m_block, HV; left; reflexivity|]; intros [b u]; mono|apply HV; left; reflexivity].
Qed.
Fixpoint ty_size (t : ty) : nat := match t with TCont _ _ items => S ((fix go l := match l with [] => O | (_, t') :: l => (ty_size t' + go l)%nat end) items) | _ => 1%nat end.
Lemma ty_size_in len tg items f : In f items -> (ty_size (snd f) < ty_size (TCont len tg items))%nat.
Proof.
  intros I. cbn [ty_size]. induction items as [|[a t] items IH]; [destruct I|]. destruct I as [<-|I]; [cbn [snd]; lia|]. specialize (IH I). cbn. lia.
Qed.
Lemma m_complex p rf : forall n t, (ty_size t <= n)%nat -> forall top a tgt src co, mono (enc_complex p rf top a t tgt src co).
Proof.
  induction n as [|n IH]; intros t Hn; [destruct t; cbn in Hn; lia|]. intros top a tgt src co. destruct t as [e| | | |d|d|x|x args|el l|len tg items]; cbn [enc_complex]; try solve [apply m_type].
  assert (HI : forall f, In f items -> forall top a tgt src co, mono (enc_complex p rf top a (snd f) tgt src co)).
  { intros f I. apply IH. pose proof (ty_size_in len tg items f I). lia. }
  apply m_bind; [mono|]. intros b. apply m_bind; [|intros _; mono]. destruct tg.
  - apply m_bind; [|intros [bd u]; mono]. apply m_block, m_variants. intros v I. apply in_map_iff in I as (f & <- & I). apply m_variant; [intros; apply HI, I|].
    intros a' t' k I'. destruct (snd f) as [| | | | | | | | |len' tg' sub] eqn:Ef; try destruct I'. apply in_map_iff in I' as (g & E & I'). injection E as <- <- <-. intros x y z. apply IH.
    pose proof (ty_size_in len true items f I) as L. rewrite Ef in L. pose proof (ty_size_in len' tg' sub g I'). lia.
  - apply m_bind; [destruct top; mono|]. intros _. apply m_items; [|intros ? ? ? []]. intros a' t' k I. apply in_map_iff in I as (f & E & I). injection E as <- <- <-. intros x y z. apply HI, I.
Qed.

(** ** Windows of registers. *)
Definition free (a b : nat) (s : scope) : Prop := forall r, In r (sr s) \/ In r (ss s) -> (r < a \/ b <= r)%nat.
Definition win (a b : nat) (s s' : scope) : Prop := forall r, In r (sr s') \/ In r (ss s') -> (In r (sr s) \/ In r (ss s)) \/ (a <= r < b)%nat.
Lemma free_sub a b a' b' s : free a b s -> (a <= a')%nat -> (b' <= b)%nat -> free a' b' s. Proof. intros F A B r I. specialize (F r I). lia. Qed.
Lemma free_win a b x s s' : free a b s -> win a x s s' -> (a <= x <= b)%nat -> free x b s'.
Proof. intros F W L r I. destruct (W r I) as [J|J]; [specialize (F r J)|]; lia. Qed.
Lemma win_refl a b s : win a b s s. Proof. intros r I. left. exact I. Qed.
Lemma win_trans a x b s s1 s2 : win a x s s1 -> win x b s1 s2 -> (a <= x <= b)%nat -> win a b s s2.
Proof. intros W1 W2 L r I. destruct (W2 r I) as [J|J]; [destruct (W1 r J) as [K|K]; [left; exact K|right; lia]|right; lia]. Qed.
Lemma win_val a b s r : (a <= r < b)%nat -> win a b s (add_val s r). Proof. intros L x [[<-|I]|I]; [right; lia|left; auto|left; auto]. Qed.
Lemma win_str a b s r : (a <= r < b)%nat -> win a b s (add_str s r). Proof. intros L x [I|[<-|I]]; [left; auto|right; lia|left; auto]. Qed.
Lemma new_free a b s r : free a b s -> (a <= r < b)%nat -> new s r = true.
Proof.
  intros F L. unfold new. destruct (has r (sr s)) eqn:H1; [apply has_in in H1; specialize (F r (or_introl H1)); lia|].
  destruct (has r (ss s)) eqn:H2; [apply has_in in H2; specialize (F r (or_intror H2)); lia|]. reflexivity.
Qed.

Definition eg (brk : bool) (c c' : ectx) (is : list einstr) (s : scope) (m : rmap) (s' : scope) (m' : rmap) : Prop :=
  escopes brk is (s, m) = Some (s', m') /\ grows s s' /\ win (ec_rc c) (ec_rc c') s s' /\ (ec_rc c <= ec_rc c')%nat.
Definition same (c c' : ectx) : Prop := ec_resolved c' = ec_resolved c /\ ec_pending c' = ec_pending c.
Lemma same_refl c : same c c. Proof. split; reflexivity. Qed.
Lemma same_trans a b c : same a b -> same b c -> same a c. Proof. intros [A B] [C D]. split; congruence. Qed.
Lemma escopes_app brk a b st : escopes brk (a ++ b) st = match escopes brk a st with Some st' => escopes brk b st' | None => None end.
Proof. revert st. induction a as [|i a IH]; intros st; [reflexivity|]. cbn [app escopes]. destruct (escope brk i st); [apply IH|reflexivity]. Qed.
Lemma escopes_one brk i st : escopes brk [i] st = escope brk i st. Proof. cbn. destruct (escope brk i st); reflexivity. Qed.
Lemma eg_nil brk c s m : eg brk c c [] s m s m. Proof. split; [reflexivity|]. split; [apply grows_refl|]. split; [apply win_refl|lia]. Qed.
Lemma eg_seq brk c c1 c2 a b s m s1 m1 s2 m2 : eg brk c c1 a s m s1 m1 -> eg brk c1 c2 b s1 m1 s2 m2 -> eg brk c c2 (a ++ b) s m s2 m2.
Proof.
  intros (A & G & W & L) (A' & G' & W' & L'). split; [rewrite escopes_app, A; exact A'|]. split; [eapply grows_trans; eassumption|]. split; [eapply win_trans; [exact W|exact W'|lia]|lia].
Qed.
Lemma eg_one brk c c' i s m s' m' : escope brk i (s, m) = Some (s', m') -> grows s s' -> win (ec_rc c) (ec_rc c') s s' -> (ec_rc c <= ec_rc c')%nat -> eg brk c c' [i] s m s' m'.
Proof. intros E G W L. split; [rewrite escopes_one; exact E|]. auto. Qed.
Lemma eg_val brk c c' i s m r : escope brk i (s, m) = Some (add_val s r, m) -> (ec_rc c <= r < ec_rc c')%nat -> eg brk c c' [i] s m (add_val s r) m.
Proof. intros E L. apply eg_one; [exact E|apply grows_val|apply win_val; lia|lia]. Qed.
Lemma eg_same brk c i s m : escope brk i (s, m) = Some (s, m) -> eg brk c c [i] s m s m.
Proof. intros E. apply eg_one; [exact E|apply grows_refl|apply win_refl|lia]. Qed.
(** a context with the same counter, or an earlier one. *)
Lemma eg_from brk c0 c c' is s m s' m' : eg brk c c' is s m s' m' -> (ec_rc c0 <= ec_rc c)%nat -> eg brk c0 c' is s m s' m'.
Proof. intros (A & G & W & L) K. split; [exact A|]. split; [exact G|]. split; [|lia]. intros r I. destruct (W r I); [left; assumption|right; lia]. Qed.
Lemma eg_to brk c c0 c' is s m s' m' : eg brk c c' is s m s' m' -> (ec_rc c' <= ec_rc c0)%nat -> eg brk c c0 is s m s' m'.
Proof. intros (A & G & W & L) K. split; [exact A|]. split; [exact G|]. split; [|lia]. intros r I. destruct (W r I); [left; assumption|right; lia]. Qed.
Lemma eg_free brk c c1 is s m s1 m1 b : eg brk c c1 is s m s1 m1 -> free (ec_rc c) b s -> (ec_rc c1 <= b)%nat -> free (ec_rc c1) b s1.
Proof. intros (_ & _ & W & L) F K. eapply free_win; [exact F|exact W|lia]. Qed.
Lemma eg_grows brk c c' is s m s' m' : eg brk c c' is s m s' m' -> grows s s'. Proof. intros (_ & G & _). exact G. Qed.
Lemma eg_le brk c c' is s m s' m' : eg brk c c' is s m s' m' -> (ec_rc c <= ec_rc c')%nat. Proof. intros (_ & _ & _ & L). exact L. Qed.
Lemma in_grows s s' r : grows s s' -> In r (sr s) -> In r (sr s'). Proof. intros [G _]. apply G. Qed.
Lemma leave_ok s s' m' : incl (ss s) (ss s') -> leave s (Some (s', m')) = Some (s, m').
Proof. intros I. unfold leave. replace (forallb (fun x => has x (ss s')) (ss s)) with true; [reflexivity|]. symmetry. apply forallb_forall. intros x J. apply has_in, I, J. Qed.
(** the local fixpoint in [escope] is [escopes]. *)
Lemma escope_cond brk c body s m : escope brk (NCond c body) (s, m) = if val_in s c then leave s (escopes brk body (s, m)) else None. Proof. reflexivity. Qed.
Lemma escope_loop brk idx stop body s m : escope brk (NLoop idx stop body) (s, m) = if val_in s stop && new s idx then leave s (escopes brk body (add_val s idx, m)) else None. Proof. reflexivity. Qed.
Lemma escope_block brk body s m : escope brk (NBreakBlock body) (s, m) = leave s (escopes true body (s, m)). Proof. reflexivity. Qed.
Lemma escope_cwrap brk c prelude t r o x args s m : escope brk (NCondWrap c prelude t r o x args) (s, m) =
  if val_in s c && str_in s t then
    match escopes brk prelude (s, m) with
    | Some (s', m') => if vals_in s' args && new s o && new (add_str s o) r then leave (add_str (add_str s o) r) (Some (add_str (add_str s' o) r, m')) else None
    | None => None
    end
  else None. Proof. reflexivity. Qed.

(** Evaluations. *)
Lemma eeval_ok brk K e c is r c' s m : eeval e c = Some (is, r, c') -> free (ec_rc c) (ec_rc c') s -> vis_ok K m s -> subset (fv e) K = true ->
  eg brk c c' is s m (add_val s r) m /\ r = ec_rc c /\ same c c'.
Proof.
  intros H F V U. unfold eeval, efresh, tell, gret, gbind in H. injection H as <- <- <-. split; [|split; [reflexivity|split; reflexivity]].
  cbn [app]. apply eg_val; [|cbn [ec_rc]; lia]. cbn [escope]. rewrite (fields_ok _ _ _ _ V U), (new_free _ _ _ _ F); [reflexivity|cbn [ec_rc]; lia].
Qed.
Lemma eevals_ok brk K : forall l c is rs c' s m, eevals l c = Some (is, rs, c') -> free (ec_rc c) (ec_rc c') s -> vis_ok K m s -> subset (fvs l) K = true ->
  exists s', eg brk c c' is s m s' m /\ incl rs (sr s') /\ same c c' /\ ss s' = ss s.
Proof.
  induction l as [|e l IH]; intros c is rs c' s m H F V U; cbn [eevals] in H.
  - injection H as <- <- <-. exists s. split; [apply eg_nil|]. split; [intros ? []|split; [apply same_refl|reflexivity]].
  - cbn [fvs flat_map] in U. apply subset_app in U as [U1 U2]. bnd H i1 r c1 j1 E1. bnd H i2 rs' c2 j2 E2. unfold gret in H. injection H as <- <- <-. rewrite app_nil_r.
    pose proof (m_evals _ _ _ _ _ E2) as L2. pose proof (m_eval _ _ _ _ _ E1) as L1.
    destruct (eeval_ok brk K _ _ _ _ _ s m E1) as (G & -> & M); [eapply free_sub; [exact F|lia|lia]|exact V|exact U1|].
    destruct (IH _ _ _ _ _ m E2 (eg_free _ _ _ _ _ _ _ _ _ G F L2)) as (s' & G' & I & M' & Ss); [eapply vis_grows; [apply grows_val|exact V]|exact U2|].
    exists s'. split; [eapply eg_seq; [exact G|exact G']|]. split; [|split; [eapply same_trans; eassumption|exact Ss]]. intros x [<-|Ix]; [apply (eg_grows _ _ _ _ _ _ _ _ G'); left; reflexivity|auto].
Qed.
Lemma eopt_ok brk K (o : option expr) c is r c' s m : match o with Some e => gbind (eeval e) (fun r => gret (Some r)) | None => gret None end c = Some (is, r, c') ->
  free (ec_rc c) (ec_rc c') s -> vis_ok K m s -> subset (fvo o) K = true -> exists s', eg brk c c' is s m s' m /\ opt_in s' r = true /\ same c c' /\ (r = None <-> o = None) /\ ss s' = ss s.
Proof.
  intros H F V U. destruct o as [e|].
  - bnd H i1 r1 c1 j1 E1. injection H as <- <- <-. rewrite app_nil_r. destruct (eeval_ok brk K _ _ _ _ _ s m E1 F V U) as (G & _ & M). exists (add_val s r1).
    split; [exact G|]. split; [apply has_in; left; reflexivity|]. split; [exact M|]. split; [split; discriminate|reflexivity].
  - injection H as <- <- <-. exists s. split; [apply eg_nil|]. split; [reflexivity|]. split; [apply same_refl|]. split; [split; reflexivity|reflexivity].
Qed.

Section Enc.
  Variable p : program.
  Variable rf : nat.

  Definition tok (K : list string) (g : target -> nat -> egen unit) : Prop := forall brk tgt src c is u c' s m, g tgt src c = Some (is, u, c') ->
    free (ec_rc c) (ec_rc c') s -> str_in s tgt = true -> In src (sr s) -> vis_ok K m s -> exists s', eg brk c c' is s m s' m /\ same c c'.
  Lemma tok_one K f : (forall s tgt src m brk, str_in s tgt = true -> In src (sr s) -> escope brk (f tgt src) (s, m) = Some (s, m)) -> tok K (fun tgt src => tell (f tgt src)).
  Proof. intros H brk tgt src c is u c' s m E F T I V. injection E as <- <- <-. exists s. split; [apply eg_same, H; assumption|apply same_refl]. Qed.

  Lemma array_ok K rec el l : (forall tgt i, mono (rec tgt i)) -> tok K rec -> match l with LFixed e | LTerm e => subset (fv e) K | LRest => true end = true -> tok K (fun tgt src => enc_array p rf (rec tgt) el l tgt src).
  Proof.
    intros MR R U brk tgt src c is u c' s m H F T I V. unfold enc_array in H. bnd H i1 term c1 j1 E1. bnd H i2 len c2 j2 E2.
    assert (L2 : (ec_rc c2 <= ec_rc c')%nat).
    { assert (X : forall i, mono (rec tgt i)) by (intros; apply MR). refine ((_ : mono _) _ _ _ _ H). clear - X. mono. }
    assert (A : exists s1, eg brk c c2 (i1 ++ i2) s m s1 m /\ opt_in s1 term = true /\ opt_in s1 len = true /\ same c c2).
    { destruct l as [e| |e].
      - injection E1 as <- <- <-. destruct (eopt_ok brk K (Some e) _ _ _ _ s m E2) as (s1 & G & O & M & _); [eapply free_sub; [exact F|lia|lia]|exact V|exact U|]. exists s1. cbn [app]. auto.
      - injection E1 as <- <- <-. injection E2 as <- <- <-. exists s. cbn [app]. split; [apply eg_nil|]. split; [reflexivity|split; [reflexivity|apply same_refl]].
      - injection E2 as <- <- <-. destruct (eopt_ok brk K (Some e) _ _ _ _ s m E1) as (s1 & G & O & M & _); [eapply free_sub; [exact F|lia|lia]|exact V|exact U|]. rewrite app_nil_r. exists s1. auto. }
    clear E1 E2. destruct A as (s1 & G1 & Ot & Ol & M1). pose proof (eg_grows _ _ _ _ _ _ _ _ G1) as Gr1. pose proof (eg_le _ _ _ _ _ _ _ _ G1) as L1. pose proof (eg_free _ _ _ _ _ _ _ _ _ G1 F L2) as F1.
    assert (T1 : str_in s1 tgt = true) by (eapply str_grows; [exact Gr1|exact T]). assert (I1 : In src (sr s1)) by (eapply in_grows; [exact Gr1|exact I]). assert (I1' := I1). apply has_in in I1'.
    rewrite app_assoc.
    assert (KK : forall cc, escope brk cc (s1, m) = Some (s1, m) -> j2 = [cc] -> c' = c2 -> exists s', eg brk c c' ((i1 ++ i2) ++ j2) s m s' m /\ same c c').
    { intros cc E -> ->. exists s1. split; [eapply eg_seq; [exact G1|apply eg_same, E]|exact M1]. }
    destruct (match term with None => kind_of (resolved p rf el) | Some _ => KLoop end).
    - unfold tell in H. injection H as <- <- <-. eapply KK; [|reflexivity|reflexivity]. cbn [escope]. unfold val_in. rewrite T1, I1', Ol. reflexivity.
    - unfold tell in H. injection H as <- <- <-. eapply KK; [|reflexivity|reflexivity]. cbn [escope]. unfold val_in. rewrite T1, I1', Ol. reflexivity.
    - clear KK. bnd H i4 bb c4 j4 E4. destruct bb as [body idx]. apply block_some in E4 as (ib & ub & Hb & Eb & ->). injection Eb as -> ->. cbn [app] in *.
      bnd Hb i5 idx' c5 j5 E5. injection E5 as <- <- <-. bnd Hb i6 item c6 j6 E6. injection E6 as <- <- <-. bnd Hb i7 u7 c7 j7 E7. unfold tell in E7. injection E7 as <- <- <-. bnd Hb i8 u8 c8 j8 E8. unfold gret in Hb. injection Hb as <- <- <-. cbn [app] in *. rewrite app_nil_r in *.
      cbn [ec_rc ec_resolved ec_pending] in *.
      bnd H i9 ln c9 j9 E9. bnd H i10 u10 c10 j10 E10. unfold tell in E10. injection E10 as <- <- <-.
      pose proof (MR _ _ _ _ _ _ E8) as L8. cbn [ec_rc] in L8.
      (* the length *)
      assert (B : exists s2, eg brk c8 c9 i9 s1 m s2 m /\ In ln (sr s2) /\ same c8 c9 /\ ss s2 = ss s1 /\ (ec_rc c9 <= ec_rc c')%nat).
      { assert (L9 : (ec_rc c9 <= ec_rc c')%nat). { revert H. destruct term; [apply m_tell|apply m_ret]. }
        destruct len as [r|].
        - injection E9 as <- <- <-. exists s1. split; [apply eg_nil|]. split; [apply has_in, Ol|]. split; [apply same_refl|]. split; [reflexivity|exact L9].
        - bnd E9 i11 r c11 j11 E11. injection E11 as <- <- <-. bnd E9 i12 u12 c12 j12 E12. unfold tell in E12. injection E12 as <- <- <-. injection E9 as <- <- <-. cbn [app ec_rc] in *. exists (add_val s1 (ec_rc c8)).
          split; [|split; [left; reflexivity|split; [split; reflexivity|split; [reflexivity|exact L9]]]]. apply eg_val; [|cbn [ec_rc]; lia]. cbn [escope]. unfold val_in. rewrite I1'. cbn [orb]. rewrite (new_free _ _ _ _ F1); [reflexivity|lia]. }
      destruct B as (s2 & G9 & I9 & M9 & Ss9 & L9). pose proof (eg_grows _ _ _ _ _ _ _ _ G9) as Gr9. pose proof (eg_le _ _ _ _ _ _ _ _ G9) as L9'.
      assert (F2 : free (ec_rc c2) (ec_rc c8) s2). { destruct G9 as (_ & _ & W9 & _). intros r J. destruct (W9 r J) as [Jr|Jr]; [specialize (F1 r Jr); lia|lia]. }
      set (sb := add_val (add_val s2 (ec_rc c2)) (S (ec_rc c2))).
      assert (Fb : free (S (S (ec_rc c2))) (ec_rc c8) sb). { intros r J. cbn in J. destruct J as [[<-|[<-|J]]|J]; [lia|lia| |]; [specialize (F2 r (or_introl J))|specialize (F2 r (or_intror J))]; lia. }
      assert (Gb : grows s2 sb) by (eapply grows_trans; [apply grows_val|apply grows_val]). assert (G1b : grows s1 sb) by (eapply grows_trans; [exact Gr9|exact Gb]).
      destruct (R brk _ _ _ _ _ _ sb m E8) as (s3 & G3 & M3); [exact Fb|eapply str_grows; [exact G1b|exact T1]|left; reflexivity|eapply vis_grows; [|exact V]; eapply grows_trans; [exact Gr1|exact G1b]|].
      assert (EB : escope brk (NLoop (ec_rc c2) ln (NGetField (S (ec_rc c2)) src [FIdx (ec_rc c2)] :: i8)) (s2, m) = Some (s2, m)).
      { rewrite escope_loop. assert (X1 : val_in s2 ln = true) by (apply has_in, I9). rewrite X1, (new_free _ _ _ _ F2) by lia. cbn [andb escopes escope].
        assert (X2 : val_in (add_val s2 (ec_rc c2)) src = true) by (apply has_in; right; eapply in_grows; [exact Gr9|exact I1]). rewrite X2. cbn [andb ops_in forallb]. assert (X3 : val_in (add_val s2 (ec_rc c2)) (ec_rc c2) = true) by (apply has_in; left; reflexivity).
        rewrite X3. cbn [andb]. assert (X4 : renew (add_val s2 (ec_rc c2)) src (S (ec_rc c2)) = true). { unfold renew. apply orb_true_iff. left. apply (new_free (S (ec_rc c2)) (ec_rc c8)); [|lia]. intros r J. cbn in J. destruct J as [[<-|J]|J]; [lia| |]; [specialize (F2 r (or_introl J))|specialize (F2 r (or_intror J))]; lia. }
        rewrite X4. cbn [guard keepm]. fold sb. destruct G3 as (-> & Gr3 & _). apply leave_ok. intros x J. apply Gr3. exact J. }
      assert (GG : eg brk c c9 ((i1 ++ i2) ++ i9 ++ [NLoop (ec_rc c2) ln (NGetField (S (ec_rc c2)) src [FIdx (ec_rc c2)] :: i8)]) s m s2 m).
      { eapply eg_seq; [exact G1|]. eapply eg_seq; [eapply eg_from; [exact G9|lia]|]. apply eg_same, EB. }
      assert (MM : same c c9). { eapply same_trans; [exact M1|]. destruct M3 as [M31 M32], M9 as [M91 M92]. cbn in M31, M32. split; congruence. }
      destruct term as [t|].
      + unfold tell in H. injection H as <- <- <-. exists s2. split; [|exact MM]. change (i9 ++ [NLoop (ec_rc c2) ln (NGetField (S (ec_rc c2)) src [FIdx (ec_rc c2)] :: i8); NPrimArr tgt t (PScalar u8be) None]) with (i9 ++ ([NLoop (ec_rc c2) ln (NGetField (S (ec_rc c2)) src [FIdx (ec_rc c2)] :: i8)] ++ [NPrimArr tgt t (PScalar u8be) None])).
        rewrite (app_assoc i9), app_assoc. eapply eg_seq; [exact GG|]. apply eg_same. cbn [escope]. rewrite (str_grows _ _ _ Gr9 T1). assert (X : val_in s2 t = true) by (apply has_in; eapply in_grows; [exact Gr9|apply has_in, Ot]). rewrite X. reflexivity.
      + injection H as <- <- <-. exists s2. split; [exact GG|exact MM].
  Qed.
  Lemma type_ok K : forall t, subset (ty_fv t) K = true -> tok K (enc_type p rf t).
  Proof.
    assert (C : forall s tgt src, str_in s tgt = true -> In src (sr s) -> str_in s tgt && val_in s src = true) by (intros s tgt src T I; rewrite T; apply has_in, I).
    induction t as [e| | | |d|d|n|n args|el l IH|len tg items IH] using ty_ind'; intros U; try (intros brk tgt src c is u c' s m H; cbn [enc_type] in H; discriminate H);
      try (refine (tok_one K _ _); intros s tgt src m brk T I; cbn [escope vals_in forallb]; rewrite (C _ _ _ T I); reflexivity).
    - intros brk tgt src c is u c' s m H F T I V. cbn [enc_type] in H. bnd H i1 rs c1 j1 E1. cbn [ty_fv] in U.
      assert (E : exists cc, j1 = [cc] /\ c' = c1 /\ forall s, escope brk cc (s, m) = keepm m (guard (str_in s tgt && val_in s src && vals_in s rs) s)).
      { destruct (p n) as [[at_ ty_ ps]|]; [destruct ty_|]; unfold tell in H; injection H as <- <- <-; eexists; split; try reflexivity; split; try reflexivity. }
      destruct E as (cc & -> & -> & D). destruct (eevals_ok brk K _ _ _ _ _ s m E1 F V U) as (s1 & G1 & I1 & M1 & _). exists s1. split; [|exact M1]. eapply eg_seq; [exact G1|]. apply eg_same. rewrite D.
      pose proof (eg_grows _ _ _ _ _ _ _ _ G1) as Gr1. apply vals_in_in in I1. rewrite (C _ _ _ (str_grows _ _ _ Gr1 T) (in_grows _ _ _ Gr1 I)), I1. reflexivity.
    - cbn [ty_fv] in U. apply subset_app in U as [U1 U2]. refine (array_ok K (enc_type p rf el) el l _ (IH U2) _); [intros; apply m_type|]. destruct l; assumption || reflexivity.
  Qed.

  (** Transforms. *)
  Definition sids (l : list (nat * option nat)) : list nat := flat_map (fun x => fst x :: match snd x with Some o => [o] | None => [] end) l.
  Lemma xs_ok brk K : forall xs tgt c is inner l c' s m, enc_xs xs tgt c = Some (is, (inner, l), c') -> free (ec_rc c) (ec_rc c') s -> str_in s tgt = true -> vis_ok K m s -> subset (xs_fv xs) K = true ->
    exists s', eg brk c c' is s m s' m /\ same c c' /\ str_in s' inner = true /\ NoDup (sids l) /\ (forall x, In x (sids l) -> In x (ss s') /\ (ec_rc c <= x < ec_rc c')%nat).
  Proof.
    induction xs as [|x xs IH]; intros tgt c is inner l c' s m H F T V U; cbn [enc_xs] in H.
    - injection H as <- <- <- <-. exists s. split; [apply eg_nil|]. split; [apply same_refl|]. split; [exact T|]. split; [constructor|intros ? []].
    - cbn [xs_fv flat_map] in U. apply subset_app in U as [U1 U2]. apply subset_app in U1 as [U0 U1]. bnd H i1 cnd c1 j1 E1.
      assert (L1 : (ec_rc c <= ec_rc c1)%nat) by (refine ((_ : mono _) _ _ _ _ E1); clear; mono).
      assert (L1' : (ec_rc c1 <= ec_rc c')%nat) by (refine ((_ : mono _) _ _ _ _ H); clear; mono).
      destruct (eopt_ok brk K (x_cond x) _ _ _ _ s m E1) as (s1 & G1 & O1 & M1 & _ & Ss1); [eapply free_sub; [exact F|lia|lia]|exact V|exact U0|].
      pose proof (eg_grows _ _ _ _ _ _ _ _ G1) as Gr1. pose proof (eg_free _ _ _ _ _ _ _ _ _ G1 F L1') as F1. pose proof (str_grows _ _ _ Gr1 T) as T1. pose proof (vis_grows _ _ _ _ Gr1 V) as V1.
      destruct cnd as [cr|].
      + bnd H i2 pa c2 j2 E2. destruct pa as [prelude args]. apply block_some in E2 as (ip & ap & Hp & Ep & ->). injection Ep as <- <-.
        bnd H i3 st c3 j3 E3. injection E3 as <- <- <-. bnd H i4 o c4 j4 E4. injection E4 as <- <- <-. bnd H i5 u5 c5 j5 E5. unfold tell in E5. injection E5 as <- <- <-. bnd H i6 il c6 j6 E6. destruct il as [inner' l']. injection H as <- <- <- <-. cbn [app ec_rc ec_resolved ec_pending] in *. rewrite app_nil_r in *.
        pose proof (m_evals _ _ _ _ _ Hp) as L2. pose proof (m_xs _ _ _ _ _ _ E6) as L6. cbn [ec_rc] in L6.
        destruct (eevals_ok brk K _ _ _ _ _ s1 m Hp) as (s2 & G2 & I2 & M2 & Ss2); [eapply free_sub; [exact F1|lia|lia]|exact V1|exact U1|]. pose proof (eg_grows _ _ _ _ _ _ _ _ G2) as Gr2.
        set (s3 := add_str (add_str s1 (S (ec_rc c2))) (ec_rc c2)).
        assert (F3 : free (S (S (ec_rc c2))) (ec_rc c6) s3). { intros r J. cbn in J. destruct J as [J|[<-|[<-|J]]]; [|lia|lia|]; [specialize (F1 r (or_introl J))|specialize (F1 r (or_intror J))]; lia. }
        assert (Gr3 : grows s1 s3) by (eapply grows_trans; [apply grows_str|apply grows_str]).
        destruct (IH _ _ _ _ _ _ s3 m E6 F3) as (s4 & G4 & M4 & T4 & N4 & I4); [apply has_in; left; reflexivity|eapply vis_grows; [exact Gr3|exact V1]|exact U2|].
        assert (EW : escope brk (NCondWrap cr prelude tgt (ec_rc c2) (S (ec_rc c2)) (x_name x) args) (s1, m) = Some (s3, m)).
        { rewrite escope_cwrap. cbn [opt_in] in O1. rewrite O1, T1. cbn [andb]. destruct G2 as (-> & _). apply vals_in_in in I2. rewrite I2, (new_free _ _ _ _ F1) by lia. cbn [andb].
          assert (X : new (add_str s1 (S (ec_rc c2))) (ec_rc c2) = true). { unfold new. cbn [add_str sr ss has existsb]. replace (ec_rc c2 =? S (ec_rc c2))%nat with false by (symmetry; apply Nat.eqb_neq; lia). cbn [orb]. apply (new_free (ec_rc c1) (ec_rc c6)); [exact F1|lia]. }
          rewrite X. apply leave_ok. cbn. intros y [<-|[<-|J]]; [left; reflexivity|right; left; reflexivity|right; right; apply Gr2, J]. }
        cbn [ec_rc] in I4. exists s4. split; [|split; [|split; [exact T4|split]]].
        * eapply eg_seq; [exact G1|]. change (NCondWrap cr prelude tgt (ec_rc c2) (S (ec_rc c2)) (x_name x) args :: i6) with ([NCondWrap cr prelude tgt (ec_rc c2) (S (ec_rc c2)) (x_name x) args] ++ i6).
          eapply eg_seq; [|exact G4]. apply eg_one; [exact EW|exact Gr3| |cbn [ec_rc]; lia]. intros r J. cbn in J. cbn [ec_rc]. destruct J as [J|[<-|[<-|J]]]; [left; auto|right; lia|right; lia|left; auto].
        * destruct M1 as [A1 B1], M2 as [A2 B2], M4 as [A4 B4]. cbn in A4, B4. split; congruence.
        * cbn [sids flat_map fst snd app]. fold (sids l'). constructor; [intros [J|J]; [lia|destruct (I4 _ J); lia]|]. constructor; [intros J; destruct (I4 _ J); lia|exact N4].
        * pose proof (eg_grows _ _ _ _ _ _ _ _ G4) as Gr4. cbn [sids flat_map fst snd app]. fold (sids l'). intros y [<-|[<-|J]]; [split; [apply Gr4; left; reflexivity|lia]|split; [apply Gr4; right; left; reflexivity|lia]|]. destruct (I4 _ J). split; [assumption|lia].
      + bnd H i2 args c2 j2 E2. bnd H i3 st c3 j3 E3. injection E3 as <- <- <-. bnd H i5 u5 c5 j5 E5. unfold tell in E5. injection E5 as <- <- <-. bnd H i6 il c6 j6 E6. destruct il as [inner' l']. injection H as <- <- <- <-. cbn [app ec_rc ec_resolved ec_pending] in *. rewrite app_nil_r in *.
        pose proof (m_evals _ _ _ _ _ E2) as L2. pose proof (m_xs _ _ _ _ _ _ E6) as L6. cbn [ec_rc] in L6.
        destruct (eevals_ok brk K _ _ _ _ _ s1 m E2) as (s2 & G2 & I2 & M2 & Ss2); [eapply free_sub; [exact F1|lia|lia]|exact V1|exact U1|]. pose proof (eg_grows _ _ _ _ _ _ _ _ G2) as Gr2.
        assert (F2 : free (ec_rc c2) (ec_rc c6) s2) by (eapply eg_free; [exact G2|exact F1|lia]).
        set (s3 := add_str s2 (ec_rc c2)).
        assert (F3 : free (S (ec_rc c2)) (ec_rc c6) s3). { intros r J. cbn in J. destruct J as [J|[<-|J]]; [|lia|]; [specialize (F2 r (or_introl J))|specialize (F2 r (or_intror J))]; lia. }
        destruct (IH _ _ _ _ _ _ s3 m E6 F3) as (s4 & G4 & M4 & T4 & N4 & I4); [apply has_in; left; reflexivity|eapply vis_grows; [apply grows_str|]; eapply vis_grows; [exact Gr2|exact V1]|exact U2|].
        cbn [ec_rc] in I4. exists s4. split; [|split; [|split; [exact T4|split]]].
        * eapply eg_seq; [exact G1|]. eapply eg_seq; [exact G2|]. change (NWrap tgt (ec_rc c2) (x_name x) args :: i6) with ([NWrap tgt (ec_rc c2) (x_name x) args] ++ i6).
          eapply eg_seq; [|exact G4]. apply eg_one; [|apply grows_str|apply win_str; cbn [ec_rc]; lia|cbn [ec_rc]; lia]. cbn [escope]. apply vals_in_in in I2. rewrite (str_grows _ _ _ Gr2 T1), I2, (new_free _ _ _ _ F2) by lia. reflexivity.
        * destruct M1 as [A1 B1], M2 as [A2 B2], M4 as [A4 B4]. cbn in A4, B4. split; congruence.
        * cbn [sids flat_map fst snd app]. fold (sids l'). constructor; [intros J; destruct (I4 _ J); lia|exact N4].
        * pose proof (eg_grows _ _ _ _ _ _ _ _ G4) as Gr4. cbn [sids flat_map fst snd app]. fold (sids l'). intros y [<-|J]; [split; [apply Gr4; left; reflexivity|lia]|]. destruct (I4 _ J). split; [assumption|lia].
  Qed.
  Lemma end_in s r x : In x (ss (end_str s r)) <-> In x (ss s) /\ x <> r.
  Proof. cbn [end_str ss]. rewrite filter_In, negb_true_iff, Nat.eqb_neq. firstorder. Qed.
  Lemma ends_ok brk m : forall l c is u c' s, enc_ends l c = Some (is, u, c') -> NoDup (sids l) -> incl (sids l) (ss s) ->
    c' = c /\ exists s', escopes brk is (s, m) = Some (s', m) /\ sr s' = sr s /\ (forall x, In x (ss s') <-> In x (ss s) /\ ~ In x (sids l)).
  Proof.
    assert (One : forall i r s, (i = NEndStream r \/ i = NDrop r) -> In r (ss s) -> escope brk i (s, m) = Some (end_str s r, m)).
    { intros i r s [->| ->] I; cbn [escope]; apply has_in in I; rewrite I; reflexivity. }
    induction l as [|[st o] l IH]; intros c is u c' s H N I; cbn [enc_ends] in H.
    - injection H as <- <- <-. split; [reflexivity|]. exists s. split; [reflexivity|]. split; [reflexivity|]. cbn [sids flat_map]. tauto.
    - bnd H i1 u1 c1 j1 E1. unfold tell in E1. injection E1 as <- <- <-. bnd H i2 u2 c2 j2 E2. cbn [sids flat_map fst snd] in N, I. fold (sids l) in N, I.
      assert (I1 : In st (ss s)) by (apply I; left; reflexivity). inversion N as [|? ? N1 N2]; subst.
      destruct o as [o|].
      + unfold tell in E2. injection E2 as <- <- <-. cbn [app] in N1, N2, I. inversion N2 as [|? ? N3 N4]; subst.
        assert (I2 : In o (ss (end_str s st))). { apply end_in. split; [apply I; right; left; reflexivity|]. intros ->. apply N1. left. reflexivity. }
        destruct (IH _ _ _ _ (end_str (end_str s st) o) H N4) as (-> & s' & D & R & X).
        { intros x J. apply end_in. split; [apply end_in; split; [apply I; right; right; exact J|intros ->; apply N1; right; exact J]|intros ->; apply N3, J]. }
        split; [reflexivity|]. exists s'. cbn [app escopes]. rewrite (One _ st) by auto. rewrite (One _ o) by auto. split; [exact D|]. split; [exact R|]. intros x. rewrite X, end_in, end_in. cbn [sids flat_map fst snd app]. fold (sids l). cbn [In]. split; [intros (((A & B) & C) & E); split; [exact A|]; intros [F|[F|F]]; auto|]. intros (A & B). split; [split; [split; [exact A|]|]|]; intros F; apply B; auto.
      + injection E2 as <- <- <-. cbn [app] in *. destruct (IH _ _ _ _ (end_str s st) H N2) as (-> & s' & D & R & X).
        { intros x J. apply end_in. split; [apply I; right; exact J|intros ->; apply N1; exact J]. }
        split; [reflexivity|]. exists s'. cbn [app escopes]. rewrite (One _ st) by auto. split; [exact D|]. split; [exact R|]. intros x. rewrite X, end_in. cbn [sids flat_map fst snd app]. fold (sids l). cbn [In]. split; [intros ((A & B) & E); split; [exact A|]; intros [F|F]; auto|]. intros (A & B). split; [split; [exact A|]|]; intros F; apply B; auto.
  Qed.

  (** What encoding a field may change. *)
  Definition chg (T N : list string) (c c' : ectx) (m m' : rmap) : Prop :=
    (forall n, ~ In n T -> lookup n m' = lookup n m) /\ (forall n, ~ In n N -> lookup n (ec_resolved c') = lookup n (ec_resolved c) /\ mem n (ec_pending c') = mem n (ec_pending c)).
  Lemma chg_same T N c c' m : same c c' -> chg T N c c' m m. Proof. intros [A B]. split; [reflexivity|]. intros n _. rewrite A, B. auto. Qed.
  Lemma chg_trans T N c c1 c' m m1 m' : chg T N c c1 m m1 -> chg T N c1 c' m1 m' -> chg T N c c' m m'.
  Proof. intros [A B] [A' B']. split; [intros n I; rewrite A', A; auto|]. intros n I. destruct (B n I), (B' n I). split; congruence. Qed.
  Lemma chg_incl T N T' N' c c' m m' : chg T N c c' m m' -> incl T T' -> incl N N' -> chg T' N' c c' m m'.
  Proof. intros [A B] I J. split; intros n X; [apply A|apply B]; intros Y; apply X; auto. Qed.
  Lemma vis_chg K T N c c' m m' s s' : vis_ok K m s -> chg T N c c' m m' -> grows s s' -> (forall n, In n T -> ~ In n K) -> vis_ok K m' s'.
  Proof. intros V [A _] G D n I. destruct (V n I) as (r & L & J). exists r. split; [rewrite A; [exact L|]; intros X; exact (D n X I)|eapply in_grows; [exact G|exact J]]. Qed.
  Definition pre (K Rd : list string) (a : fattr) (t : ty) (c : ectx) (s : scope) (m : rmap) : Prop :=
    vis_ok K m s /\ vis_ok Rd m s /\ (mem (fa_name a) (ec_pending c) = true \/ subset (fvo (cont_len t)) K = true) /\ (forall n, In n (cnames (a, t)) -> lookup n (ec_resolved c) = None).
  Lemma pre_mv K Rd a t c s m c1 s1 : pre K Rd a t c s m -> same c c1 -> grows s s1 -> pre K Rd a t c1 s1 m.
  Proof. intros (A & B & C & D) [E1 E2] G. split; [eapply vis_grows; eassumption|]. split; [eapply vis_grows; eassumption|]. rewrite E1, E2. auto. Qed.
  Definition awaits (a : fattr) (t : ty) (c c' : ectx) (s' : scope) : Prop :=
    mem (fa_name a) (ec_pending c) = true -> is_some (cont_len t) = true -> exists r, lookup (fa_name a) (ec_resolved c') = Some r /\ In r (sr s').
  Definition gkok (K Rd : list string) (R : ectx -> ectx -> rmap -> rmap -> Prop) (Aw : Prop) (a : fattr) (t : ty) (k : target -> nat -> bool -> egen unit) : Prop :=
    (forall x y z, mono (k x y z)) /\
    forall brk tgt src co c is u c' s m, k tgt src co c = Some (is, u, c') -> free (ec_rc c) (ec_rc c') s -> str_in s tgt = true -> In src (sr s) -> pre K Rd a t c s m ->
      exists s' m', eg brk c c' is s m s' m' /\ R c c' m m' /\ (Aw -> awaits a t c c' s').
  Definition kok (K : list string) (a : fattr) (t : ty) := gkok K (ready_names (flatten_ty t)) (chg (touched t) (cnames (a, t))) True a t.
  Definition pres (R : ectx -> ectx -> rmap -> rmap -> Prop) : Prop := (forall c c' m, same c c' -> R c c' m m) /\ (forall c c1 c' m m', same c c1 -> R c1 c' m m' -> R c c' m m').
  Lemma pres_chg T N : pres (chg T N). Proof. split; [intros; apply chg_same; assumption|]. intros c c1 c' m m' S0 C. eapply chg_trans; [apply chg_same, S0|exact C]. Qed.
  Lemma sids_rev_nd l : NoDup (sids l) -> NoDup (sids (rev l)).
  Proof. intros N. eapply Permutation_NoDup; [|exact N]. unfold sids. apply Permutation_flat_map, Permutation_rev. Qed.
  Lemma sids_rev_in l x : In x (sids (rev l)) <-> In x (sids l).
  Proof. unfold sids. rewrite !in_flat_map. split; intros (y & I & J); exists y; (split; [|exact J]); [apply in_rev; exact I|apply in_rev in I; exact I]. Qed.
  Lemma uncond_ok K Rd R Aw a t k ps brk tgt src sc tc c is u c' s m : pres R -> gkok K Rd R Aw a t k -> subset (xs_fv (fa_xs a)) K = true -> (fa_pad a = true -> subset (ty_fv t) K = true) ->
    enc_uncond k a t ps tgt src sc tc c = Some (is, u, c') -> free (ec_rc c) (ec_rc c') s -> str_in s tgt = true -> In src (sr s) -> pre K Rd a t c s m ->
    exists s' m', eg brk c c' is s m s' m' /\ R c c' m m' /\ (fa_pad a = false -> Aw -> awaits a t c c' s').
  Proof.
    intros [RS RT] [KM KO] UX UP H F T I P. unfold enc_uncond in H. bnd H i1 il c1 j1 E1. destruct il as [inner l]. bnd H i2 src' c2 j2 E2. bnd H i3 u3 c3 j3 E3.
    pose proof (m_xs _ _ _ _ _ _ E1) as L1.
    assert (L2 : (ec_rc c1 <= ec_rc c2)%nat) by (refine ((_ : mono _) _ _ _ _ E2); clear; mono).
    assert (L3 : (ec_rc c2 <= ec_rc c3)%nat) by (refine ((_ : mono _) _ _ _ _ E3); clear - KM; mono).
    pose proof (m_ends _ _ _ _ _ H) as L4. destruct P as (V & P').
    destruct (xs_ok brk K _ _ _ _ _ _ _ s m E1) as (s1 & G1 & M1 & T1 & N1 & I1); [eapply free_sub; [exact F|lia|lia]|exact T|exact V|exact UX|].
    assert (F1 : free (ec_rc c1) (ec_rc c') s1) by (eapply eg_free; [exact G1|exact F|lia]). pose proof (eg_grows _ _ _ _ _ _ _ _ G1) as Gr1.
    assert (A2 : exists s2, eg brk c1 c2 i2 s1 m s2 m /\ same c1 c2 /\ In src' (sr s2)).
    { destruct (sc && negb ps && match fa_calc a with Some _ => false | None => true end && negb (fa_pad a)).
      - bnd E2 i4 r c4 j4 E4. injection E4 as <- <- <-. bnd E2 i5 u5 c5 j5 E5. unfold tell in E5. injection E5 as <- <- <-. injection E2 as <- <- <-. cbn [app ec_rc] in *. exists (add_val s1 (ec_rc c1)).
        split; [|split; [split; reflexivity|left; reflexivity]]. apply eg_val; [|cbn [ec_rc]; lia]. cbn [escope]. assert (X : val_in s1 src = true) by (apply has_in; eapply in_grows; [exact Gr1|exact I]). rewrite X. unfold renew. rewrite (new_free _ _ _ _ F1) by lia. reflexivity.
      - injection E2 as <- <- <-. exists s1. split; [apply eg_nil|]. split; [apply same_refl|]. eapply in_grows; [exact Gr1|exact I]. }
    destruct A2 as (s2 & G2 & M2 & I2). pose proof (eg_grows _ _ _ _ _ _ _ _ G2) as Gr2. assert (F2 : free (ec_rc c2) (ec_rc c') s2) by (eapply eg_free; [exact G2|exact F1|lia]).
    assert (P2 : pre K Rd a t c2 s2 m) by (eapply pre_mv; [split; [exact V|exact P']|eapply same_trans; eassumption|eapply grows_trans; eassumption]).
    assert (A3 : exists s3 m3, eg brk c2 c3 i3 s2 m s3 m3 /\ R c2 c3 m m3 /\ (fa_pad a = false -> Aw -> awaits a t c2 c3 s3)).
    { destruct (fa_pad a).
      - destruct t as [| | | | | | | |el [e| |]|]; try discriminate E3. bnd E3 i4 r c4 j4 E4. unfold tell in E3. injection E3 as <- <- <-.
        destruct P2 as (V2 & _). specialize (UP eq_refl). cbn [ty_fv] in UP. apply subset_app in UP as [UP _].
        destruct (eeval_ok brk K _ _ _ _ _ s2 m E4) as (G4 & _ & M4); [eapply free_sub; [exact F2|lia|lia]|exact V2|exact UP|]. exists (add_val s2 r), m. split; [|split; [apply RS, M4|discriminate]].
        eapply eg_seq; [exact G4|]. apply eg_same. cbn [escope]. rewrite (str_grows _ _ _ (eg_grows _ _ _ _ _ _ _ _ G4) (str_grows _ _ _ Gr2 T1)). assert (X : val_in (add_val s2 r) r = true) by (apply has_in; left; reflexivity). rewrite X. reflexivity.
      - destruct (KO brk _ _ _ _ _ _ _ s2 m E3) as (s3 & m3 & G3 & C3 & W3); [eapply free_sub; [exact F2|lia|lia]|eapply str_grows; [exact Gr2|exact T1]|exact I2|exact P2|]. exists s3, m3. auto. }
    destruct A3 as (s3 & m3 & G3 & C3 & W3). pose proof (eg_grows _ _ _ _ _ _ _ _ G3) as Gr3.
    destruct (ends_ok brk m3 _ _ _ _ _ s3 H) as (-> & s4 & D4 & R4 & X4); [apply sids_rev_nd, N1|intros x J; apply (proj1 (sids_rev_in l x)) in J; destruct (I1 _ J) as [J1 _]; apply Gr3, Gr2, J1|].
    exists s4, m3. split; [|split].
    - pose proof (eg_seq _ _ _ _ _ _ _ _ _ _ _ _ G1 (eg_seq _ _ _ _ _ _ _ _ _ _ _ _ G2 G3)) as (D & Gr & W & L). split; [|split; [|split; [|exact L]]].
      + rewrite !app_assoc, escopes_app. rewrite !app_assoc in D. rewrite D. exact D4.
      + split; [rewrite R4; apply Gr|]. intros x J. apply X4. split; [apply Gr, J|]. intros Y. apply (proj1 (sids_rev_in l x)) in Y. destruct (I1 _ Y) as [_ Y2]. specialize (F x (or_intror J)). lia.
      + intros r [J|J]; [rewrite R4 in J; apply W; left; exact J|apply X4 in J as [J _]; apply W; right; exact J].
    - eapply RT; [|exact C3]. eapply same_trans; eassumption.
    - intros Pd Aw0 Pn Cl. destruct M1 as [_ M1], M2 as [_ M2]. destruct (W3 Pd Aw0) as (r & Lr & Jr); [rewrite M2, M1; exact Pn|exact Cl|]. exists r. split; [exact Lr|rewrite R4; exact Jr].
  Qed.
  Lemma econd_ok brk K a c is o c' s m : enc_cond a c = Some (is, o, c') -> free (ec_rc c) (ec_rc c') s -> vis_ok K m s -> subset (fvo (fa_cond a)) K = true ->
    exists s', eg brk c c' is s m s' m /\ opt_in s' o = true /\ same c c' /\ (o = None <-> fa_cond a = None) /\ ss s' = ss s.
  Proof. unfold enc_cond. apply eopt_ok. Qed.
  Lemma field_ok K Rd R Aw a t k ps brk tgt src co c is u c' s m : pres R -> gkok K Rd R Aw a t k -> subset (fvo (fa_cond a) ++ xs_fv (fa_xs a)) K = true -> (fa_pad a = true -> subset (ty_fv t) K = true) ->
    enc_field k a t ps tgt src co c = Some (is, u, c') -> free (ec_rc c) (ec_rc c') s -> str_in s tgt = true -> In src (sr s) -> pre K Rd a t c s m ->
    exists s' m', eg brk c c' is s m s' m' /\ R c c' m m' /\ (fa_cond a = None -> fa_pad a = false -> Aw -> awaits a t c c' s').
  Proof.
    intros RR KO U UP H F T I P. assert (RR' := RR). destruct RR' as [RS RT]. apply subset_app in U as [U1 U2]. unfold enc_field in H. bnd H i1 o c1 j1 E1. pose proof (m_cond _ _ _ _ _ E1) as L1.
    assert (L2 : (ec_rc c1 <= ec_rc c')%nat). { refine ((_ : mono _) _ _ _ _ H). destruct KO as [KM _]. clear - KM. destruct o; mono; apply m_uncond, KM. }
    assert (P' := P). destruct P' as (V & _).
    destruct (econd_ok brk K _ _ _ _ _ s m E1) as (s1 & G1 & O1 & M1 & Oc & Ss1); [eapply free_sub; [exact F|lia|lia]|exact V|exact U1|]. pose proof (eg_grows _ _ _ _ _ _ _ _ G1) as Gr1.
    assert (F1 : free (ec_rc c1) (ec_rc c') s1) by (eapply eg_free; [exact G1|exact F|lia]). assert (P1 : pre K Rd a t c1 s1 m) by (eapply pre_mv; [exact P|exact M1|exact Gr1]).
    destruct o as [cr|].
    - bnd H i2 bb c2 j2 E2. destruct bb as [body ub]. apply block_some in E2 as (ib & ub' & Hb & Eb & ->). injection Eb as -> ->. unfold tell in H. injection H as <- <- <-. cbn [app].
      destruct (uncond_ok K Rd R Aw a t k ps brk _ _ _ _ _ _ _ _ s1 m RR KO U2 UP Hb F1) as (s2 & m2 & G2 & C2 & _); [eapply str_grows; [exact Gr1|exact T]|eapply in_grows; [exact Gr1|exact I]|exact P1|].
      exists s1, m2. split; [|split].
      + eapply eg_seq; [exact G1|]. apply eg_one; [|apply grows_refl|apply win_refl|exact L2]. rewrite escope_cond. cbn [opt_in] in O1. rewrite O1. destruct G2 as (-> & [_ Gs] & _). apply leave_ok, Gs.
      + eapply RT; [exact M1|exact C2].
      + intros Cn. apply Oc in Cn. discriminate Cn.
    - destruct (uncond_ok K Rd R Aw a t k ps brk _ _ _ _ _ _ _ _ s1 m RR KO U2 UP H F1) as (s2 & m2 & G2 & C2 & W2); [eapply str_grows; [exact Gr1|exact T]|eapply in_grows; [exact Gr1|exact I]|exact P1|].
      exists s2, m2. split; [eapply eg_seq; [exact G1|exact G2]|]. split; [eapply RT; [exact M1|exact C2]|]. intros _ Pd Aw0 Pn Cl. apply (W2 Pd Aw0); [destruct M1 as [_ ->]; exact Pn|exact Cl].
  Qed.

  (** Items. *)
  Fixpoint enames_items (known : list string) (wt : option (string * (fattr * ty))) (l : list (fattr * ty)) : bool :=
    match l with
    | [] => true
    | (a, t') :: l =>
        if waits a then match fa_calc a with Some e => match blen_calls e with Some [c] => enames_items known (Some (c, (a, t'))) l | _ => false end | None => false end
        else
          subset (fvo (fa_cond a) ++ xs_fv (fa_xs a)) known && (awaited wt a || subset (fvo (cont_len t')) known) && enames known t' &&
          (if awaited wt a then match wt with Some (c, f) => late_names known c f && enames_items (fa_name (fst f) :: known) None l | None => false end
           else enames_items known wt l)
    end.
  Lemma enames_cont K len tg items : enames K (TCont len tg items) = enames_items (K ++ ready_names items) None items. Proof. reflexivity. Qed.
  Lemma vis_set K m s n r : vis_ok K m s -> In r (sr s) -> vis_ok (n :: K) ((n, r) :: m) s.
  Proof.
    intros V I x J. rewrite lookup_cons. destruct (String.eqb_spec n x) as [E|E]; [exists r; auto|]. destruct J as [J|J]; [congruence|]. apply V, J.
  Qed.
  Lemma vis_sub K K' m s : vis_ok K m s -> incl K' K -> vis_ok K' m s. Proof. intros V I n J. apply V, I, J. Qed.
  Lemma vis_app K K' m s : vis_ok K m s -> vis_ok K' m s -> vis_ok (K ++ K') m s. Proof. intros V V' n J. apply in_app_or in J as [J|J]; auto. Qed.
  Lemma flat_nil t : is_cont t = false -> flatten_ty t = []. Proof. destruct t; try reflexivity. discriminate. Qed.
  Lemma touched_nil t : is_cont t = false -> touched t = []. Proof. destruct t; try reflexivity. discriminate. Qed.
  Lemma cnames_nil a t : is_cont t = false -> cnames (a, t) = []. Proof. unfold cnames. cbn [snd]. intros ->. reflexivity. Qed.
  Lemma leaf_gkok top K R Aw a t : pres R -> is_cont t = false -> subset (ty_fv t) K = true -> gkok K (ready_names (flatten_ty t)) R Aw a t (enc_complex p rf top a t).
  Proof.
    intros [RS _] C U. split; [intros x y z; eapply m_complex, le_n|]. intros brk tgt src co c is u c' s m H F T I (V & _).
    assert (E : enc_complex p rf top a t tgt src co = enc_type p rf t tgt src) by (destruct t; try reflexivity; discriminate C). rewrite E in H.
    destruct (type_ok K t U brk _ _ _ _ _ _ s m H F T I V) as (s' & G & M). exists s', m. split; [exact G|]. split; [apply RS, M|]. intros _ _ Cl. apply cont_len_is_cont in Cl. congruence.
  Qed.
  Lemma leaf_kok K a t : is_cont t = false -> subset (ty_fv t) K = true -> kok K a t (enc_complex p rf false a t).
  Proof. intros C U. apply leaf_gkok; [apply pres_chg|exact C|exact U]. Qed.
  Lemma enames_leaf K t : is_cont t = false -> enames K t = subset (ty_fv t) K. Proof. destruct t; try reflexivity. discriminate. Qed.
  Lemma fixed_names K t : enames K t = true -> subset (ty_fv t) K = true. Proof. intros H. destruct (is_cont t) eqn:C; [destruct t; try discriminate C; reflexivity|rewrite enames_leaf in H; assumption]. Qed.

  Definition mk (f : fattr * ty) : eitem := (fst f, snd f, enc_complex p rf false (fst f) (snd f)).
  Definition fieldk (co : bool) (a : fattr) (t : ty) : target -> nat -> egen unit := fun tg sr => enc_field (enc_complex p rf false a t) a t (is_cont t) tg sr co.
  Definition kall (f : fattr * ty) : Prop := forall vis K, ewf vis (snd f) = true -> enames K (snd f) = true -> incl K vis -> NoDup (cnames f) -> kok K (fst f) (snd f) (enc_complex p rf false (fst f) (snd f)).
  Definition aw (vis : list string) (co : bool) (s : scope) (c : ectx) (wt : option (string * (fattr * ty))) (autos : list auto) : Prop :=
    match wt with
    | None => autos = []
    | Some (cn, (af, tf)) => exists b e, autos = [(b, af, fieldk co af tf)] /\ In b (ss s) /\ mem cn (ec_pending c) = true /\ fa_calc af = Some e /\ blen_calls e = Some [cn] /\ is_cont tf = false /\ fa_pad af = false /\ In (fa_name af) vis
    end.
  Lemma m_fieldk co a t tg sr : mono (fieldk co a t tg sr). Proof. apply m_field. intros x y z. eapply m_complex, le_n. Qed.
  Lemma aw_mono vis co s c wt autos : aw vis co s c wt autos -> m_autos autos.
  Proof. unfold aw. destruct wt as [[cn [af tf]]|]; [|intros ->; intros ? ? ? []]. intros (b & e & -> & _) b' a' f [E|[]] x y. injection E as <- <- <-. apply m_fieldk. Qed.
  Lemma m_its items buf src co autos : m_autos autos -> mono (enc_items (map mk items) buf src co autos).
  Proof. intros A. apply m_items; [|exact A]. intros a t k I x y z. apply in_map_iff in I as (f & E & _). injection E as <- <- <-. eapply m_complex, le_n. Qed.
  Lemma aw_mv vis co s c wt autos s' c' : aw vis co s c wt autos -> grows s s' -> (match wt with Some (cn, _) => mem cn (ec_pending c') = mem cn (ec_pending c) | None => True end) -> aw vis co s' c' wt autos.
  Proof. unfold aw. destruct wt as [[cn [af tf]]|]; [|auto]. intros (b & e & A & B & C & D) [_ G] M. exists b, e. rewrite M. repeat (split; [solve [auto]|]). exact D. Qed.

  (** The waiting field, once the container is encoded. *)
  Lemma late_ok brk known cn af tf co b e buf s m c is autos' c' : flush_autos 1 [(b, af, fieldk co af tf)] buf c = Some (is, autos', c') ->
    fa_calc af = Some e -> blen_calls e = Some [cn] -> is_cont tf = false -> fa_pad af = false -> late_names known cn (af, tf) = true -> (exists r, lookup cn (ec_resolved c) = Some r /\ In r (sr s)) ->
    free (ec_rc c) (ec_rc c') s -> str_in s buf = true -> In b (ss s) -> vis_ok known m s ->
    autos' = [] /\ exists s' m', eg brk c c' is s m s' m' /\ chg [fa_name af; blen_name cn] [] c c' m m' /\
      (forall K, vis_ok K m s -> vis_ok (fa_name af :: K) m' s').
  Proof.
    intros H Ec Eb Cf Pf LN (r0 & R0 & I0) F T Ib V. cbn [flush_autos nth_error] in H. rewrite Ec, Eb in H. cbn [all_resolved] in H.
    unfold late_names in LN. cbn [fst snd] in LN. rewrite Ec in LN. apply andb_true_iff in LN as [LN1 LN2]. destruct (rewrite_blen [cn] e) as [e'|] eqn:Er; [|discriminate LN1].
    bnd H i1 ok c1 j1 E1. bnd E1 i2 o c2 j2 E2. injection E2 as <- <- <-. bnd E1 i3 ok3 c3 j3 E3. injection E3 as <- <- <-. injection E1 as <- <- <-. rewrite R0 in H. cbn [app] in H |- *.
    bnd H i4 r c4 j4 E4. unfold eval_blen in E4. bnd E4 i5 u5 c5 j5 E5. cbn [set_blens] in E5. bnd E5 i6 o6 c6 j6 E6. injection E6 as <- <- <-. rewrite R0 in E5. bnd E5 i7 u7 c7 j7 E7. unfold tell in E7. injection E7 as <- <- <-. injection E5 as <- <- <-. cbn [app] in *.
    rewrite Er in E4. bnd E4 i8 r8 c8 j8 E8. bnd E4 i9 u9 c9 j9 E9. unfold tell in E9. injection E9 as <- <- <-. injection E4 as <- <- <-.
    cbn [remove_nth nth_error] in H. bnd H i10 u10 c10 j10 E10. bnd H i11 u11 c11 j11 E11. unfold tell in E11. injection E11 as <- <- <-. cbn [flush_autos] in H. injection H as <- <- <-. split; [reflexivity|].
    pose proof (m_eval _ _ _ _ _ E8) as L8. pose proof (m_fieldk _ _ _ _ _ _ _ _ _ E10) as L10.
    set (m1 := (blen_name cn, r0) :: m). assert (V1 : vis_ok (blen_name cn :: known) m1 s) by (apply vis_set; assumption).
    destruct (eeval_ok brk (blen_name cn :: known) _ _ _ _ _ s m1 E8) as (G8 & _ & M8); [eapply free_sub; [exact F|lia|lia]|exact V1|exact LN1|].
    set (s2 := add_val s r8) in *. set (m2 := (fa_name af, r8) :: m1). assert (I8 : In r8 (sr s2)) by (left; reflexivity).
    assert (VK : forall K, vis_ok K m s -> vis_ok (fa_name af :: K) m2 s2). { intros K VK. apply vis_set; [|exact I8]. eapply vis_grows; [apply grows_val|]. eapply vis_sub; [apply vis_set; [exact VK|exact I0]|]. apply incl_tl, incl_refl. }
    assert (F2 : free (ec_rc c8) (ec_rc c10) s2) by (eapply eg_free; [exact G8|exact F|exact L10]).
    assert (Gr8 : grows s s2) by apply grows_val.
    rewrite app_assoc in LN2. apply subset_app in LN2 as [LN2 LN3].
    destruct (field_ok (fa_name af :: known) _ _ _ af tf (enc_complex p rf false af tf) (is_cont tf) brk _ _ _ _ _ _ _ s2 m2 (pres_chg _ _) (leaf_kok _ _ _ Cf LN3) LN2 (fun _ => LN3) E10 F2) as (s3 & m3 & G3 & C3 & _).
    { eapply str_grows; [exact Gr8|exact T]. }
    { exact I8. }
    { split; [apply VK, V|]. rewrite (flat_nil _ Cf), (cnames_nil _ _ Cf). split; [intros ? []|]. split; [|intros ? []]. right. destruct tf; try reflexivity. discriminate Cf. }
    rewrite (touched_nil _ Cf), (cnames_nil _ _ Cf) in C3.
    assert (E3 : m3 = m3) by reflexivity.
    pose proof (eg_grows _ _ _ _ _ _ _ _ G3) as Gr3.
    exists s3, m3. split; [|split].
    - assert (H1 : eg brk c c [NSetRef (blen_name cn) r0] s m s m1). { apply eg_one; [|apply grows_refl|apply win_refl|lia]. cbn [escope]. assert (X : val_in s r0 = true) by (apply has_in, I0). rewrite X. reflexivity. }
      assert (H2 : eg brk c8 c8 [NSetRef (fa_name af) r8] s2 m1 s2 m2). { apply eg_one; [|apply grows_refl|apply win_refl|lia]. cbn [escope]. assert (X : val_in s2 r8 = true) by (apply has_in, I8). rewrite X. reflexivity. }
      assert (H3 : eg brk c10 c10 [NEmitBuf buf b] s3 m3 s3 m3). { apply eg_same. cbn [escope]. assert (X : has b (ss s3) = true) by (apply has_in, Gr3, Gr8, Ib). rewrite X, (str_grows _ _ _ Gr3 (str_grows _ _ _ Gr8 T)). reflexivity. }
      pose proof (eg_seq _ _ _ _ _ _ _ _ _ _ _ _ H1 (eg_seq _ _ _ _ _ _ _ _ _ _ _ _ G8 (eg_seq _ _ _ _ _ _ _ _ _ _ _ _ H2 (eg_seq _ _ _ _ _ _ _ _ _ _ _ _ G3 H3)))) as Q.
      replace (NSetRef (blen_name cn) r0 :: _) with ([NSetRef (blen_name cn) r0] ++ i8 ++ [NSetRef (fa_name af) r8] ++ i10 ++ [NEmitBuf buf b]); [exact Q|]. cbn [app]. rewrite <- ?app_assoc. cbn [app]. rewrite ?app_nil_r. reflexivity.
    - split.
      + intros n N. destruct C3 as [C3 _]. rewrite C3 by (intros []). unfold m2, m1. rewrite !lookup_cons. destruct (String.eqb_spec (fa_name af) n) as [E|_]; [exfalso; apply N; left; exact E|]. destruct (String.eqb_spec (blen_name cn) n) as [E|_]; [exfalso; apply N; right; left; exact E|]. reflexivity.
      + destruct C3 as [_ C3]. intros n N. destruct M8 as [A B]. rewrite <- A, <- B. apply C3, N.
    - intros K HK. eapply vis_chg; [apply VK, HK|exact C3|exact Gr3|intros ? []].
  Qed.

  Lemma ready_app a b : ready_names (a ++ b) = ready_names a ++ ready_names b. Proof. unfold ready_names. rewrite filter_app, map_app. reflexivity. Qed.
  Lemma flat_cons f items : flatten_items (f :: items) = flatten_field f ++ flatten_items items. Proof. reflexivity. Qed.
  Lemma leaf_ready l n : In n (ready_names l) -> In n (leaf_names l).
  Proof. unfold ready_names, leaf_names. rewrite !in_map_iff. intros (f & E & I). exists f. split; [exact E|]. apply filter_In in I as [I R]. apply filter_In. split; [exact I|]. unfold ready in R. apply andb_true_iff in R as [R _]. exact R. Qed.
  Lemma all_conts_cons f items : all_conts (f :: items) = cnames f ++ all_conts items. Proof. reflexivity. Qed.

  Lemma items_ok items : Forall kall items -> forall vis known wt autos T N brk buf src co c is u c' s m,
    enc_items (map mk items) buf src co autos c = Some (is, u, c') ->
    enames_items known wt items = true -> disj vis items = true -> auto_ok vis (option_map fst wt) items = true ->
    forallb (fun f => attr_ok vis f && ewf vis (snd f)) items = true -> incl known vis -> incl (leaf_names items) vis -> NoDup (all_conts items) ->
    (forall n, In n (all_conts items) -> lookup n (ec_resolved c) = None) -> aw vis co s c wt autos ->
    incl (leaf_names (flatten_items items)) T -> incl (map blen_name (all_conts items)) T -> incl (all_conts items) N -> match wt with Some (_, f) => In (fa_name (fst f)) T | None => True end ->
    free (ec_rc c) (ec_rc c') s -> str_in s buf = true -> In src (sr s) -> vis_ok known m s -> vis_ok (ready_names (flatten_items items)) m s ->
    exists s' m', eg brk c c' is s m s' m' /\ chg T N c c' m m'.
  Proof.
    intros KA. induction KA as [|[a t] items KF KA IH]; intros vis known wt autos T N brk buf src co c is u c' s m H EN DJ AO WF KV LV ND RN AW TT TB NN TW F TI I V VR; cbn [map enc_items] in H.
    - destruct autos; [|discriminate H]. injection H as <- <- <-. exists s, m. split; [apply eg_nil|apply chg_same, same_refl].
    - unfold mk at 1 in H. cbn [fst snd] in H. cbn [enames_items] in EN. cbn [disj] in DJ. apply andb_true_iff in DJ as [DJ1 DJ2]. cbn [forallb] in WF. apply andb_true_iff in WF as [WF1 WF2]. apply andb_true_iff in WF1 as [WA WE].
      rewrite all_conts_cons in ND, RN, TB, NN. destruct (NoDup_app_inv _ _ ND) as (ND1 & ND2 & ND3). rewrite flat_cons in VR. rewrite ready_app in VR. 
      assert (RN2 : forall n, In n (all_conts items) -> lookup n (ec_resolved c) = None) by (intros n J; apply RN, in_or_app; right; exact J).
      assert (TT2 : incl (leaf_names (flatten_items items)) T) by (intros n J; apply TT, leaf_names_tail, J).
      assert (TB2 : incl (map blen_name (all_conts items)) T) by (intros n J; apply TB; rewrite map_app; apply in_or_app; right; exact J).
      assert (NN2 : incl (all_conts items) N) by (intros n J; apply NN, in_or_app; right; exact J).
      assert (VR2 : vis_ok (ready_names (flatten_items items)) m s) by (eapply vis_sub; [exact VR|intros n J; apply in_or_app; right; exact J]).
      assert (LV2 : incl (leaf_names items) vis). { intros n J. apply LV. unfold leaf_names in *. cbn [filter]. destruct (leaf (a, t)); [right; exact J|exact J]. }
      unfold attr_ok in WA. cbn [fst snd] in WA. apply andb_true_iff in WA as [_ WC].
      destruct (waits a) eqn:W.
      + (* a length *)
        destruct (fa_calc a) as [e|] eqn:Ec; [|discriminate EN]. destruct (blen_calls e) as [bl|] eqn:Eb; [|discriminate EN]. destruct bl as [|cn [|]]; try discriminate EN.
        cbn [is_some negb orb] in WC. apply negb_true_iff, orb_false_iff in WC as [Cf Pf].
        assert (Lf : leaf (a, t) = true) by (unfold leaf; cbn [fst snd]; rewrite Cf, Pf; reflexivity).
        assert (Wn : wt = None). { destruct wt as [[c0 f0]|]; [|reflexivity]. cbn [option_map fst auto_ok] in AO. rewrite Ec, Eb in AO. destruct (String.eqb c0 (fa_name a)); [cbn in AO; rewrite ?andb_false_r in AO; discriminate AO|discriminate AO]. }
        subst wt. cbn [option_map auto_ok] in AO. rewrite Ec, Eb in AO. destruct (rewrite_blen [cn] e); [|discriminate AO]. apply andb_true_iff in AO as [_ AO].
        cbn [aw] in AW. subst autos. pose proof (auto_ok_conts _ _ _ AO) as IC. pose proof (RN2 _ IC) as R0.
        bnd H i1 ok c1 j1 E1. cbn [all_resolved] in E1. bnd E1 i2 o c2 j2 E2. injection E2 as <- <- <-. bnd E1 i3 o3 c3 j3 E3. injection E3 as <- <- <-. injection E1 as <- <- <-. rewrite R0 in H. cbn [app] in H |- *.
        bnd H i4 u4 c4 j4 E4. cbn [pend_all] in E4. bnd E4 i5 o5 c5 j5 E5. injection E5 as <- <- <-. rewrite R0 in E4. bnd E4 i6 u6 c6 j6 E6. injection E6 as <- <- <-. injection E4 as <- <- <-. cbn [app] in H |- *.
        bnd H i7 b c7 j7 E7. injection E7 as <- <- <-. bnd H i8 u8 c8 j8 E8. unfold tell in E8. injection E8 as <- <- <-. cbn [app ec_rc ec_resolved ec_pending] in H |- *.
        set (c9 := {| ec_rc := S (ec_rc c); ec_resolved := ec_resolved c; ec_pending := cn :: ec_pending c |}) in *. set (s9 := add_str s (ec_rc c)).
        assert (L9 : (ec_rc c9 <= ec_rc c')%nat). { refine (m_its items buf src co _ _ _ _ _ _ H). intros b' a' f' [E|[]] x y. injection E as <- <- <-. apply m_field. intros; eapply m_complex, le_n. }
        cbn [ec_rc c9] in L9.
        assert (Gr9 : grows s s9) by apply grows_str.
        destruct (IH vis known (Some (cn, (a, t))) [(ec_rc c, a, fieldk co a t)] T N brk buf src co c9 j8 u c' s9 m H EN DJ2 AO WF2 KV LV2 ND2) as (s' & m' & G & C).
        { exact RN2. }
        { exists (ec_rc c), e. split; [reflexivity|]. split; [left; reflexivity|]. split; [cbn [ec_pending c9]; rewrite mem_cons, String.eqb_refl; reflexivity|]. repeat (split; [assumption|]). apply LV. unfold leaf_names. cbn [filter]. rewrite Lf. left. reflexivity. }
        { exact TT2. } { exact TB2. } { exact NN2. }
        { cbn [fst]. apply TT, leaf_names_flat. unfold leaf_names. cbn [filter]. rewrite Lf. left. reflexivity. }
        { intros r J. cbn in J. destruct J as [J|[<-|J]]; [|cbn [ec_rc c9]; lia|]; [specialize (F r (or_introl J))|specialize (F r (or_intror J))]; cbn [ec_rc c9]; lia. }
        { eapply str_grows; [exact Gr9|exact TI]. } { exact I. } { eapply vis_grows; [exact Gr9|exact V]. } { eapply vis_grows; [exact Gr9|exact VR2]. }
        exists s', m'. split.
        * change (NAllocDyn (ec_rc c) :: j8) with ([NAllocDyn (ec_rc c)] ++ j8). eapply eg_seq; [|exact G]. apply eg_one; [|exact Gr9|apply win_str; cbn [ec_rc c9]; lia|cbn [ec_rc c9]; lia]. cbn [escope]. rewrite (new_free _ _ _ _ F) by lia. reflexivity.
        * eapply chg_trans; [|exact C]. split; [reflexivity|]. intros n Nn. cbn [ec_resolved ec_pending c9]. split; [reflexivity|]. rewrite mem_cons. destruct (String.eqb_spec n cn) as [->|_]; [exfalso; apply Nn, NN2, IC|reflexivity].
      + (* any other item *)
        assert (Pl : gbind (if is_cont t || fa_pad a then enc_field (enc_complex p rf false a t) a t (is_cont t) (auto_target autos buf) src co
                       else gbind efresh (fun r => gbind (tell (NGetRef r (fa_name a))) (fun _ => enc_field (enc_complex p rf false a t) a t (is_cont t) (auto_target autos buf) r co)))
                     (fun _ => gbind (flush_autos (List.length autos) autos buf) (fun autos => enc_items (map mk items) buf src co autos)) c = Some (is, u, c')).
        { unfold waits in W. destruct (fa_calc a); [|exact H]. destruct (blen_calls e) as [[|]|]; try discriminate W. exact H. }
        clear H. apply andb_true_iff in EN as [EN EN4]. apply andb_true_iff in EN as [EN EN3]. apply andb_true_iff in EN as [EN1 EN2].
        bnd Pl i1 u1 c1 j1 E1. bnd Pl i2 autos' c2 j2 E2.
        pose proof (aw_mono _ _ _ _ _ _ AW) as AM.
        assert (L1 : (ec_rc c <= ec_rc c1)%nat). { refine ((_ : mono _) _ _ _ _ E1). destruct (is_cont t || fa_pad a); [apply m_fieldk|]. apply m_bind; [mono|intros]. apply m_bind; [mono|intros]. apply m_fieldk. }
        pose proof (m_flush _ _ _ AM _ _ _ _ E2) as L2. pose proof (flush_autos_in _ _ _ _ _ _ _ E2) as FI.
        assert (AM' : m_autos autos') by (intros b' a' f' J; eapply AM, FI, J). pose proof (m_its items buf src co autos' AM' _ _ _ _ Pl) as L3.
        assert (KO : kok known a t (enc_complex p rf false a t)) by (apply (KF vis known WE EN3 KV ND1)).
        assert (Ti : str_in s (auto_target autos buf) = true). { unfold aw in AW. destruct wt as [[cn [af tf]]|]; [destruct AW as (b & e & -> & Ib & _); apply has_in, Ib|rewrite AW; exact TI]. }
        assert (PR : pre known (ready_names (flatten_ty t)) a t c s m).
        { split; [exact V|]. split.
          - destruct (is_cont t) eqn:Ct; [|rewrite (flat_nil _ Ct); intros ? []]. eapply vis_sub; [exact VR|]. intros n J. apply in_or_app. left. unfold flatten_field. cbn [snd]. rewrite Ct. exact J.
          - split; [|intros n J; apply RN, in_or_app; left; exact J]. apply orb_true_iff in EN2 as [Aw|Aw]; [left|right; exact Aw]. unfold awaited in Aw. unfold aw in AW. destruct wt as [[cn [af tf]]|]; [|discriminate Aw]. apply String.eqb_eq in Aw as <-. destruct AW as (b & e & _ & _ & Pn & _). exact Pn. }
        assert (A : exists s1 m1, eg brk c c1 i1 s m s1 m1 /\ chg (touched t) (cnames (a, t)) c c1 m m1 /\ (fa_cond a = None -> fa_pad a = false -> awaits a t c c1 s1)).
        { destruct (is_cont t || fa_pad a) eqn:CP.
          - destruct (field_ok known _ _ _ a t _ (is_cont t) brk _ _ _ _ _ _ _ s m (pres_chg _ _) KO EN1 (fun _ => fixed_names _ _ EN3) E1) as (s0 & m0 & G0 & C0 & W0); [eapply free_sub; [exact F|lia|lia]|exact Ti|exact I|exact PR|]. exists s0, m0. tauto.
          - bnd E1 i3 r c3 j3 E3. injection E3 as <- <- <-. bnd E1 i4 u4 c4 j4 E4. unfold tell in E4. injection E4 as <- <- <-. cbn [app] in *.
            set (c3 := {| ec_rc := S (ec_rc c); ec_resolved := ec_resolved c; ec_pending := ec_pending c |}) in *. assert (Sc : same c c3) by (split; reflexivity).
            assert (L3' : (ec_rc c3 <= ec_rc c1)%nat) by (refine ((_ : mono _) _ _ _ _ E1); apply m_field; intros; eapply m_complex, le_n). cbn [ec_rc c3] in L3'.
            set (s1 := add_val s (ec_rc c)). assert (Gr : grows s s1) by apply grows_val.
            apply orb_false_iff in CP as [Cf Pf].
            destruct (VR (fa_name a)) as (q & Lq & Iq). { apply in_or_app. left. unfold flatten_field. cbn [snd]. rewrite Cf. unfold ready_names. cbn [filter]. unfold ready, leaf. cbn [fst snd]. rewrite Cf, Pf, W. left. reflexivity. }
            destruct (field_ok known _ _ _ a t _ (is_cont t) brk _ _ _ _ _ _ _ s1 m (pres_chg _ _) KO EN1 (fun _ => fixed_names _ _ EN3) E1) as (s2 & m2 & G2 & C2 & W2).
            { intros r J. cbn in J. change (ec_rc c3) with (S (ec_rc c)). destruct J as [[<-|J]|J]; [lia| |]; [specialize (F r (or_introl J))|specialize (F r (or_intror J))]; clear - F L1 L2 L3 L3'; lia. }
            { eapply str_grows; [exact Gr|exact Ti]. } { left. reflexivity. } { eapply pre_mv; [exact PR|exact Sc|exact Gr]. }
            exists s2, m2. split; [|split].
            + change (NGetRef (ec_rc c) (fa_name a) :: j4) with ([NGetRef (ec_rc c) (fa_name a)] ++ j4). refine (eg_seq brk c c3 c1 _ _ s m s1 m s2 m2 _ G2). apply (eg_val brk c c3); [|change (ec_rc c3) with (S (ec_rc c)); clear; lia]. cbn [escope]. rewrite Lq. assert (X : val_in s q = true) by (apply has_in, Iq). rewrite X, (new_free _ _ _ _ F) by lia. reflexivity.
            + eapply chg_trans; [apply chg_same, Sc|exact C2].
            + intros Q1 Q2. exact (W2 Q1 Q2 Logic.I). }
        destruct A as (s1 & m1 & G1 & C1 & W1). pose proof (eg_grows _ _ _ _ _ _ _ _ G1) as Gr1. assert (F1 : free (ec_rc c1) (ec_rc c') s1) by (eapply eg_free; [exact G1|exact F|lia]).
        pose proof (disjoint_not _ _ DJ1) as DN.
        assert (V1 : vis_ok known m1 s1). { eapply vis_chg; [exact V|exact C1|exact Gr1|]. intros n J K. apply (DN n J), in_or_app. left. apply KV, K. }
        assert (VR1 : vis_ok (ready_names (flatten_items items)) m1 s1). { eapply vis_chg; [exact VR2|exact C1|exact Gr1|]. intros n J K. apply (DN n J), in_or_app. right. apply leaf_ready, K. }
        assert (RN1 : forall n, In n (all_conts items) -> lookup n (ec_resolved c1) = None). { intros n J. destruct C1 as [_ C1]. destruct (C1 n) as [-> _]; [intros K; exact (ND3 n K J)|apply RN2, J]. }
        assert (CT : chg T N c c1 m m1). { eapply chg_incl; [exact C1| |intros n J; apply NN, in_or_app; left; exact J]. intros n J. unfold touched in J. apply in_app_or in J as [J|J]; [apply TT; apply (leaf_names_head (a, t)); exact J|]. apply TB. rewrite map_app. apply in_or_app. left.
          apply in_map_iff in J as (y & <- & J). apply in_map. unfold cnames. cbn [fst snd]. destruct (is_cont t) eqn:Ct; [right; exact J|]. destruct t; try destruct J. discriminate Ct. }
        assert (TI1 : str_in s1 buf = true) by (eapply str_grows; [exact Gr1|exact TI]). assert (I1 : In src (sr s1)) by (eapply in_grows; [exact Gr1|exact I]).
        destruct wt as [[cn [af tf]]|].
        * (* a field waits *)
          cbn [aw] in AW. assert (AW' := AW). destruct AW' as (b & e & -> & Ib & Pn & Ec & Eb & Cf & Pf & Nv). cbn [option_map fst auto_ok] in AO. cbn [awaited] in EN4, EN2. cbn [List.length] in E2. cbn [fst] in TW.
          destruct (String.eqb_spec cn (fa_name a)) as [->|Nc].
          -- (* for this container *)
             repeat (apply andb_true_iff in AO as [AO ?]). match goal with X : auto_ok _ None items = true |- _ => rename X into AO2 end.
             apply andb_true_iff in EN4 as [LN EN4]. destruct (fa_cond a) eqn:Ca; [discriminate|]. destruct (fa_pad a) eqn:Pa; [discriminate|].
             pose proof (W1 eq_refl eq_refl Pn AO) as R1.
             destruct (late_ok brk known (fa_name a) af tf co b e buf s1 m1 c1 i2 autos' c2 E2 Ec Eb Cf Pf LN R1) as (-> & s2 & m2 & G2 & C2 & VK); [eapply free_sub; [exact F1|lia|lia]|exact TI1|apply Gr1, Ib|exact V1|].
             pose proof (eg_grows _ _ _ _ _ _ _ _ G2) as Gr2.
             destruct (IH vis (fa_name af :: known) None [] T N brk buf src co c2 j2 u c' s2 m2 Pl EN4 DJ2 AO2 WF2) as (s' & m' & G & C).
             { intros n [<-|J]; [exact Nv|apply KV, J]. } { exact LV2. } { exact ND2. } { intros n J. destruct C2 as [_ C2]. destruct (C2 n) as [-> _]; [intros []|]. apply RN1, J. } { reflexivity. } { exact TT2. } { exact TB2. } { exact NN2. } { exact Logic.I. }
             { eapply eg_free; [exact G2|exact F1|exact L3]. } { eapply str_grows; [exact Gr2|exact TI1]. } { eapply in_grows; [exact Gr2|exact I1]. } { apply VK, V1. } { eapply vis_sub; [apply VK, VR1|apply incl_tl, incl_refl]. }
             exists s', m'. split; [eapply eg_seq; [exact G1|eapply eg_seq; [exact G2|exact G]]|]. eapply chg_trans; [exact CT|]. eapply chg_trans; [|exact C]. eapply chg_incl; [exact C2| |intros ? []].
             intros n [<-|[<-|[]]]; [exact TW|]. apply TB. rewrite map_app. apply in_or_app. left. apply in_map. unfold cnames. cbn [fst snd]. rewrite (cont_len_is_cont _ AO). left. reflexivity.
          -- (* for a later one *)
             assert (AO2 : auto_ok vis (Some cn) items = true). { destruct (fa_calc a) as [e0|]; [|exact AO]. destruct (blen_calls e0) as [[|]|]; try discriminate AO. exact AO. }
             pose proof (auto_ok_conts _ _ _ AO2) as IC. pose proof (RN1 _ IC) as R1.
             cbn [flush_autos nth_error] in E2. rewrite Ec, Eb in E2. cbn [all_resolved] in E2.
             bnd E2 i3 ok c3 j3 E3. bnd E3 i4 o4 c4 j4 E4. injection E4 as <- <- <-. bnd E3 i5 o5 c5 j5 E5. injection E5 as <- <- <-. injection E3 as <- <- <-. rewrite R1 in E2. cbn [app flush_autos] in E2. injection E2 as <- <- <-. cbn [app].
             assert (Pq : mem cn (ec_pending c1) = mem cn (ec_pending c)). { destruct C1 as [_ C1]. apply C1. intros K. exact (ND3 cn K IC). }
             destruct (IH vis known (Some (cn, (af, tf))) [(b, af, fieldk co af tf)] T N brk buf src co c1 j2 u c' s1 m1 Pl EN4 DJ2 AO2 WF2 KV LV2 ND2 RN1) as (s' & m' & G & C).
             { eapply (aw_mv vis co s c); [exact AW|exact Gr1|exact Pq]. } { exact TT2. } { exact TB2. } { exact NN2. } { exact TW. } { exact F1. } { exact TI1. } { exact I1. } { exact V1. } { exact VR1. }
             exists s', m'. split; [eapply eg_seq; [exact G1|exact G]|]. eapply chg_trans; [exact CT|exact C].
        * cbn [aw] in AW. subst autos. cbn [List.length flush_autos] in E2. injection E2 as <- <- <-. cbn [app]. cbn [awaited] in EN4.
          assert (AO2 : auto_ok vis None items = true). { cbn [option_map auto_ok] in AO. unfold waits in W. destruct (fa_calc a) as [e0|]; [|exact AO]. destruct (blen_calls e0) as [[|]|]; try discriminate W. exact AO. }
          destruct (IH vis known None [] T N brk buf src co c1 j2 u c' s1 m1 Pl EN4 DJ2 AO2 WF2 KV LV2 ND2 RN1) as (s' & m' & G & C).
          { reflexivity. } { exact TT2. } { exact TB2. } { exact NN2. } { exact Logic.I. } { exact F1. } { exact TI1. } { exact I1. } { exact V1. } { exact VR1. }
          exists s', m'. split; [eapply eg_seq; [exact G1|exact G]|]. eapply chg_trans; [exact CT|exact C].
  Qed.

  (** The buffer of a container. *)
  Definition wrapk (len : option expr) (a : fattr) (tgt : target) (body : target -> egen unit) : egen unit :=
    gbind (match len with
           | Some e => gbind efresh (fun b => gbind (epending (fa_name a)) (fun pend => gbind (if pend then tell (NAllocDyn b) else gbind (eeval e) (fun l => tell (NAllocBuf b l))) (fun _ => gret (Some b))))
           | None => gret None
           end)
      (fun buf => gbind (body (match buf with Some b => TBuf b | None => tgt end))
         (fun _ => match buf with
                   | Some b => gbind (epending (fa_name a)) (fun pend =>
                       gbind (if pend then gbind (eunpend (fa_name a)) (fun _ => gbind efresh (fun r => gbind (tell (NGetLen r b)) (fun _ => ers_insert (fa_name a) r))) else gret tt) (fun _ => tell (NEmitBuf tgt b)))
                   | None => gret tt
                   end)).
  Lemma wrap_ok brk len a tgt body K c is u c' s m (R : ectx -> ectx -> rmap -> rmap -> Prop) :
    (forall x, mono (body x)) -> wrapk len a tgt body c = Some (is, u, c') -> free (ec_rc c) (ec_rc c') s -> str_in s tgt = true -> vis_ok K m s ->
    (mem (fa_name a) (ec_pending c) = true \/ subset (fvo len) K = true) ->
    (forall bt c1 i1 u1 c1' s1, body bt c1 = Some (i1, u1, c1') -> same c c1 -> grows s s1 -> free (ec_rc c1) (ec_rc c1') s1 -> str_in s1 bt = true ->
       exists s' m', eg brk c1 c1' i1 s1 m s' m' /\ R c1 c1' m m') ->
    exists s' m' ca cb, eg brk c c' is s m s' m' /\ same c ca /\ R ca cb m m' /\
      (forall n, n <> fa_name a -> lookup n (ec_resolved c') = lookup n (ec_resolved cb) /\ mem n (ec_pending c') = mem n (ec_pending cb)) /\
      (is_some len = true -> mem (fa_name a) (ec_pending cb) = true -> exists r, lookup (fa_name a) (ec_resolved c') = Some r /\ In r (sr s')).
  Proof.
    intros MB H F T V LP B. unfold wrapk in H. bnd H i1 buf c1 j1 E1. bnd H i2 u2 c2 j2 E2.
    assert (L1 : (ec_rc c <= ec_rc c1)%nat) by (refine ((_ : mono _) _ _ _ _ E1); clear; mono). pose proof (MB _ _ _ _ _ E2) as L2.
    assert (L3 : (ec_rc c2 <= ec_rc c')%nat) by (refine ((_ : mono _) _ _ _ _ H); clear; mono).
    assert (A1 : exists s1, eg brk c c1 i1 s m s1 m /\ same c c1 /\ str_in s1 (match buf with Some b => TBuf b | None => tgt end) = true /\ is_some buf = is_some len).
    { destruct len as [e|].
      - bnd E1 i3 b c3 j3 E3. injection E3 as <- <- <-. bnd E1 i4 pd c4 j4 E4. injection E4 as <- <- <-. bnd E1 i5 u5 c5 j5 E5. injection E1 as <- <- <-. cbn [app] in *. rewrite app_nil_r. cbn [ec_pending] in E5.
        destruct (mem (fa_name a) (ec_pending c)) eqn:Pn.
        + unfold tell in E5. injection E5 as <- <- <-. cbn [ec_rc] in *. exists (add_str s (ec_rc c)). split; [|split; [split; reflexivity|split; [apply has_in; left; reflexivity|reflexivity]]].
          apply eg_one; [|apply grows_str|apply win_str; cbn [ec_rc]; lia|cbn [ec_rc]; lia]. cbn [escope]. rewrite (new_free _ _ _ _ F) by lia. reflexivity.
        + destruct LP as [LP|LP]; [discriminate LP|]. bnd E5 i6 l c6 j6 E6. unfold tell in E5. injection E5 as <- <- <-. cbn [fvo] in LP.
          assert (X := E6). apply m_eval in X. cbn [ec_rc] in X.
          destruct (eeval_ok brk K _ _ _ _ _ s m E6) as (G6 & El & M6); [intros r J; specialize (F r J); cbn [ec_rc]; lia|exact V|exact LP|]. cbn [ec_rc] in El. subst l.
          pose proof (eg_le _ _ _ _ _ _ _ _ G6) as L6. assert (L6' : (S (S (ec_rc c)) <= ec_rc c6)%nat) by (unfold eeval, efresh, tell, gret, gbind in E6; injection E6 as <- <-; cbn [ec_rc]; lia).
          exists (add_str (add_val s (S (ec_rc c))) (ec_rc c)). split; [|split; [destruct M6 as [A6 B6]; cbn in A6, B6; split; congruence|split; [apply has_in; left; reflexivity|reflexivity]]].
          split; [|split; [eapply grows_trans; [apply grows_val|apply grows_str]|split; [|lia]]].
          * destruct G6 as (D6 & _). rewrite escopes_app, D6. cbn [escopes escope]. assert (X1 : val_in (add_val s (S (ec_rc c))) (S (ec_rc c)) = true) by (apply has_in; left; reflexivity). rewrite X1.
            assert (X2 : new (add_val s (S (ec_rc c))) (ec_rc c) = true). { unfold new. cbn [add_val sr ss has existsb]. replace (ec_rc c =? S (ec_rc c))%nat with false by (symmetry; apply Nat.eqb_neq; lia). cbn [orb]. apply (new_free _ _ _ _ F). lia. }
            rewrite X2. reflexivity.
          * intros r J. cbn in J. destruct J as [[<-|J]|[<-|J]]; [right; lia|left; left; exact J|right; lia|left; right; exact J].
      - injection E1 as <- <- <-. exists s. split; [apply eg_nil|]. split; [apply same_refl|]. split; [exact T|reflexivity]. }
    destruct A1 as (s1 & G1 & M1 & T1 & Bl). pose proof (eg_grows _ _ _ _ _ _ _ _ G1) as Gr1.
    assert (F1 : free (ec_rc c1) (ec_rc c') s1) by (eapply eg_free; [exact G1|exact F|lia]).
    destruct (B _ _ _ _ _ s1 E2 M1 Gr1) as (s2 & m2 & G2 & R2); [eapply free_sub; [exact F1|lia|lia]|exact T1|]. pose proof (eg_grows _ _ _ _ _ _ _ _ G2) as Gr2.
    assert (F2 : free (ec_rc c2) (ec_rc c') s2) by (eapply eg_free; [exact G2|exact F1|lia]).
    pose proof (eg_seq _ _ _ _ _ _ _ _ _ _ _ _ G1 G2) as G12.
    destruct buf as [b|].
    - assert (Ib : In b (ss s2)) by (apply Gr2, has_in, T1). assert (T2 : str_in s2 tgt = true) by (eapply str_grows; [exact Gr2|eapply str_grows; [exact Gr1|exact T]]).
      bnd H i3 pd c3 j3 E3. injection E3 as <- <- <-. bnd H i4 u4 c4 j4 E4. unfold tell in H. injection H as <- <- <-. cbn [app].
      destruct (mem (fa_name a) (ec_pending c2)) eqn:Pn.
      + bnd E4 i5 u5 c5 j5 E5. injection E5 as <- <- <-. bnd E4 i6 r c6 j6 E6. injection E6 as <- <- <-. bnd E4 i7 u7 c7 j7 E7. unfold tell in E7. injection E7 as <- <- <-. unfold ers_insert in E4. injection E4 as <- <- <-. cbn [app ec_rc ec_resolved ec_pending] in *.
        exists (add_val s2 (ec_rc c2)), m2, c1, c2. split; [|split; [exact M1|split; [exact R2|split]]].
        * rewrite app_assoc. eapply eg_seq; [exact G12|]. apply (eg_seq brk c2 {| ec_rc := S (ec_rc c2); ec_resolved := (fa_name a, ec_rc c2) :: ec_resolved c2; ec_pending := filter (fun m0 => negb (String.eqb (fa_name a) m0)) (ec_pending c2) |} _ [NGetLen (ec_rc c2) b] [NEmitBuf tgt b] s2 m2 (add_val s2 (ec_rc c2)) m2).
          -- apply eg_val; [|cbn [ec_rc]; lia]. cbn [escope]. apply has_in in Ib. rewrite Ib, orb_true_r, (new_free _ _ _ _ F2) by lia. reflexivity.
          -- apply eg_same. cbn [escope]. rewrite (str_grows s2 _ _ (grows_val _ _) T2). cbn [add_val ss]. apply has_in in Ib. rewrite Ib. reflexivity.
        * intros n Nn. cbn [ec_resolved ec_pending]. rewrite lookup_cons. destruct (String.eqb_spec (fa_name a) n) as [E|_]; [congruence|]. split; [reflexivity|]. rewrite mem_filter. destruct (String.eqb_spec n (fa_name a)) as [E|_]; [congruence|]. apply andb_true_r.
        * intros _ _. exists (ec_rc c2). cbn [ec_resolved]. rewrite lookup_cons, String.eqb_refl. split; [reflexivity|left; reflexivity].
      + injection E4 as <- <- <-. cbn [app]. exists s2, m2, c1, c2. split; [|split; [exact M1|split; [exact R2|split]]].
        * rewrite app_assoc. eapply eg_seq; [exact G12|]. apply eg_same. cbn [escope]. rewrite T2. apply has_in in Ib. rewrite Ib. reflexivity.
        * intros n _. split; reflexivity.
        * intros _ X. congruence.
    - injection H as <- <- <-. rewrite app_nil_r. exists s2, m2, c1, c2. split; [exact G12|]. split; [exact M1|]. split; [exact R2|]. split; [intros n _; split; reflexivity|]. rewrite <- Bl. discriminate.
  Qed.
  Definition var (f : fattr * ty) : evitem := (fst f, snd f, enc_complex p rf false (fst f) (snd f), match snd f with TCont _ _ sub => map mk sub | _ => [] end).
  Definition cbody (top : bool) (a : fattr) (tg : bool) (items : list (fattr * ty)) (src : nat) (co : bool) (bt : target) : egen unit :=
    if tg then gbind (block (enc_variants (fa_name a) (map var items) bt src)) (fun x => let '(body, _) := x in tell (NBreakBlock body))
    else gbind (if top then gbind (enc_refs (flatten_items items) src) (fun _ => enc_calcs (flatten_items items)) else if co then enc_nullchecks items else gret tt) (fun _ => enc_items (map mk items) bt src co []).
  Lemma complex_wrap top a len tg items tgt src co : enc_complex p rf top a (TCont len tg items) tgt src co = wrapk len a tgt (cbody top a tg items src co).
  Proof. reflexivity. Qed.

  Lemma nullchecks_ok brk : forall l c is u c' s m, enc_nullchecks l c = Some (is, u, c') -> free (ec_rc c) (ec_rc c') s -> vis_ok (ready_names l) m s ->
    exists s' m', eg brk c c' is s m s' m' /\ same c c' /\ (forall n, ~ In n (leaf_names l) -> lookup n m' = lookup n m) /\ (forall K, vis_ok K m s -> vis_ok K m' s').
  Proof.
    induction l as [|[a t] l IH]; intros c is u c' s m H F V; cbn [enc_nullchecks] in H.
    - injection H as <- <- <-. exists s, m. split; [apply eg_nil|]. split; [apply same_refl|]. split; auto.
    - assert (V2 : vis_ok (ready_names l) m s). { eapply vis_sub; [exact V|]. intros n J. unfold ready_names in *. cbn [filter]. destruct (ready (a, t)); [right; exact J|exact J]. }
      assert (NL : forall n, ~ In n (leaf_names ((a, t) :: l)) -> ~ In n (leaf_names l)). { intros n J X. apply J. unfold leaf_names in *. cbn [filter]. destruct (leaf (a, t)); [right; exact X|exact X]. }
      destruct (match fa_calc a with Some _ => true | None => false end) eqn:C1; [cbn [orb] in H; destruct (IH _ _ _ _ s m H F V2) as (s' & m' & G & M & N & K); exists s', m'; auto 8|].
      destruct (fa_pad a) eqn:C2; [cbn [orb] in H; destruct (IH _ _ _ _ s m H F V2) as (s' & m' & G & M & N & K); exists s', m'; auto 8|].
      destruct (is_cont t) eqn:C3; [cbn [orb] in H; destruct (IH _ _ _ _ s m H F V2) as (s' & m' & G & M & N & K); exists s', m'; auto 8|].
      destruct (fa_cond a) eqn:C4; [cbn [orb] in H; destruct (IH _ _ _ _ s m H F V2) as (s' & m' & G & M & N & K); exists s', m'; auto 8|].
      cbn [orb] in H. bnd H i1 r c1 j1 E1. injection E1 as <- <- <-. bnd H i2 u2 c2 j2 E2. unfold tell in E2. injection E2 as <- <- <-. bnd H i3 u3 c3 j3 E3. unfold tell in E3. injection E3 as <- <- <-. bnd H i4 u4 c4 j4 E4. unfold tell in E4. injection E4 as <- <- <-. cbn [app] in *.
      assert (Lf : leaf (a, t) = true) by (unfold leaf; cbn [fst snd]; rewrite C2, C3; reflexivity).
      assert (Rd : ready (a, t) = true). { unfold ready. rewrite Lf. unfold waits. cbn [fst]. destruct (fa_calc a); [discriminate C1|reflexivity]. }
      destruct (V (fa_name a)) as (q & Lq & Iq). { unfold ready_names. cbn [filter]. rewrite Rd. left. reflexivity. }
      set (c1 := {| ec_rc := S (ec_rc c); ec_resolved := ec_resolved c; ec_pending := ec_pending c |}) in *. pose proof (m_nullchecks _ _ _ _ _ H) as L. change (ec_rc c1) with (S (ec_rc c)) in L.
      set (s1 := add_val (add_val s (ec_rc c)) (ec_rc c)). set (m1 := (fa_name a, ec_rc c) :: m).
      assert (Gr : grows s s1) by (eapply grows_trans; [apply grows_val|apply grows_val]).
      assert (VK : forall K, vis_ok K m s -> vis_ok K m1 s1). { intros K VK. eapply vis_sub; [apply vis_set; [eapply vis_grows; [exact Gr|exact VK]|left; reflexivity]|apply incl_tl, incl_refl]. }
      destruct (IH _ _ _ _ s1 m1 H) as (s' & m' & G & M & N & K).
      { intros r J. change (ec_rc c1) with (S (ec_rc c)). cbn in J. destruct J as [[<-|[<-|J]]|J]; [lia|lia| |]; [specialize (F r (or_introl J))|specialize (F r (or_intror J))]; lia. }
      { apply VK, V2. }
      exists s', m'. split; [|split; [exact M|split]].
      + change (NGetRef (ec_rc c) (fa_name a) :: NNullCheck (ec_rc c) (ec_rc c) :: NSetRef (fa_name a) (ec_rc c) :: j4) with ([NGetRef (ec_rc c) (fa_name a); NNullCheck (ec_rc c) (ec_rc c); NSetRef (fa_name a) (ec_rc c)] ++ j4).
        refine (eg_seq brk c c1 _ _ _ _ _ s1 m1 _ _ _ G). split; [|split; [exact Gr|split]].
        * cbn [escopes escope]. rewrite Lq. assert (X : val_in s q = true) by (apply has_in, Iq). rewrite X, (new_free _ _ _ _ F) by lia. cbn [andb guard keepm].
          assert (X1 : val_in (add_val s (ec_rc c)) (ec_rc c) = true) by (apply has_in; left; reflexivity). rewrite X1. unfold renew. rewrite Nat.eqb_refl, orb_true_r. cbn [andb guard keepm]. assert (X2 : val_in s1 (ec_rc c) = true) by (apply has_in; left; reflexivity). fold s1. rewrite X2. reflexivity.
        * change (ec_rc c1) with (S (ec_rc c)). intros r J. cbn in J. destruct J as [[<-|[<-|J]]|J]; [right; lia|right; lia|left; auto|left; auto].
        * change (ec_rc c1) with (S (ec_rc c)). lia.
      + intros n J. rewrite N by (apply NL, J). unfold m1. rewrite lookup_cons. destruct (String.eqb_spec (fa_name a) n) as [E|_]; [|reflexivity]. exfalso. apply J. unfold leaf_names. cbn [filter]. rewrite Lf. left. exact E.
      + intros K0 VK0. apply K, VK, VK0.
  Qed.
  Lemma ready_flat items n : In n (ready_names items) -> In n (ready_names (flatten_items items)).
  Proof.
    induction items as [|[a t] items IH]; [intros []|]. rewrite flat_cons, ready_app. intros J. apply in_or_app. unfold ready_names in J. cbn [filter] in J. destruct (ready (a, t)) eqn:R; [|right; apply IH, J]. destruct J as [<-|J]; [left|right; apply IH, J].
    unfold flatten_field. cbn [snd]. assert (R' := R). unfold ready, leaf in R'. cbn [fst snd] in R'. apply andb_true_iff in R' as [R' _]. apply negb_true_iff, orb_false_iff in R' as [_ R']. rewrite R'. unfold ready_names. cbn [filter]. rewrite R. left. reflexivity.
  Qed.
  Lemma complex_kall : forall t a, kall (a, t).
  Proof.
    induction t as [e| | | |d|d|x|x args|el l IH|len tg items IH] using ty_ind'; intros a; try solve [intros vis K _ EN _ _; cbn [fst snd] in *; apply leaf_kok; [reflexivity|exact EN]].
    intros vis K WF EN KV ND. cbn [fst snd] in *. rewrite enames_cont in EN. cbn [ewf] in WF. apply andb_true_iff in WF as [WF WF5]. apply andb_true_iff in WF as [WF WF4]. apply andb_true_iff in WF as [WF WF3]. apply andb_true_iff in WF as [WF1 WF2]. apply negb_true_iff in WF1. subst tg.
    unfold cnames in ND. cbn [is_cont snd fst] in ND. rewrite conts_all in ND. inversion ND as [|? ? ND1 ND2]; subst.
    split; [intros; eapply m_complex, le_n|]. intros brk tgt src co c is u c' s m H F T I (V & VR & LP & RN). rewrite complex_wrap in H. cbn [cont_len] in LP. rewrite flatten_ty_cont in VR.
    assert (KA : Forall kall items). { apply Forall_forall. intros [a' t'] J. rewrite Forall_forall in IH. apply (IH _ J). }
    destruct (wrap_ok brk len a tgt (cbody false a false items src co) K c is u c' s m (chg (touched (TCont len false items)) (all_conts items))) with (2 := H) as (s' & m' & ca & cb & G & Sm & C & N & W); try assumption.
    { intros bt. unfold cbody. apply m_bind; [destruct co; mono|]. intros _. apply m_its. intros ? ? ? []. }
    { intros bt c1 i1 u1 c1' s1 E M Gr F1 T1. unfold cbody in E. bnd E i2 u2 c2 j2 E2.
      assert (L1 : (ec_rc c1 <= ec_rc c2)%nat) by (refine ((_ : mono _) _ _ _ _ E2); destruct co; mono). assert (L2 : (ec_rc c2 <= ec_rc c1')%nat). { refine (m_its items bt src co [] _ _ _ _ _ E). intros ? ? ? []. }
      assert (A : exists s2 m2, eg brk c1 c2 i2 s1 m s2 m2 /\ same c1 c2 /\ (forall n, ~ In n (leaf_names items) -> lookup n m2 = lookup n m) /\ (forall K, vis_ok K m s1 -> vis_ok K m2 s2)).
      { destruct co.
        - apply (nullchecks_ok brk _ _ _ _ _ _ _ E2); [eapply free_sub; [exact F1|lia|lia]|]. eapply vis_grows; [exact Gr|]. eapply vis_sub; [exact VR|]. intros n. apply ready_flat.
        - injection E2 as <- <- <-. exists s1, m. split; [apply eg_nil|]. split; [apply same_refl|]. split; auto. }
      destruct A as (s2 & m2 & G2 & M2 & N2 & K2). pose proof (eg_grows _ _ _ _ _ _ _ _ G2) as Gr2.
      assert (VR2 : vis_ok (ready_names (flatten_items items)) m2 s2) by (apply K2; eapply vis_grows; [exact Gr|exact VR]).
      destruct (items_ok items KA (vis ++ leaf_names items) (K ++ ready_names items) None [] (touched (TCont len false items)) (all_conts items) brk bt src co c2 j2 u1 c1' s2 m2 E EN WF3 WF4 WF5) as (s3 & m3 & G3 & C3).
      { intros n J. apply in_app_or in J as [J|J]; apply in_or_app; [left; apply KV, J|right; apply leaf_ready, J]. }
      { apply incl_appr, incl_refl. } { exact ND2. }
      { intros n J. destruct M as [M _], M2 as [M2 _]. rewrite M2, M. apply RN. unfold cnames. cbn [is_cont snd fst]. rewrite conts_all. right. exact J. }
      { reflexivity. } { rewrite touched_cont. apply incl_appl, incl_refl. } { rewrite touched_cont. apply incl_appr, incl_refl. } { apply incl_refl. } { exact Logic.I. }
      { eapply eg_free; [exact G2|exact F1|lia]. } { eapply str_grows; [exact Gr2|exact T1]. } { eapply in_grows; [exact Gr2|eapply in_grows; [exact Gr|exact I]]. }
      { apply vis_app; [apply K2; eapply vis_grows; [exact Gr|exact V]|]. eapply vis_sub; [exact VR2|intros n; apply ready_flat]. } { exact VR2. }
      exists s3, m3. split; [eapply eg_seq; [exact G2|exact G3]|]. eapply chg_trans; [|exact C3]. split; [|intros n _; destruct M2 as [-> ->]; auto]. intros n J. apply N2. intros X. apply J. rewrite touched_cont. apply in_or_app. left. apply leaf_names_flat, X. }
    exists s', m'. split; [exact G|]. assert (CN : cnames (a, TCont len false items) = fa_name a :: all_conts items) by (unfold cnames; cbn [is_cont snd fst]; rewrite conts_all; reflexivity).
    destruct C as [Ca Cb]. destruct Sm as [Sa Sb]. split.
    - split; [exact Ca|]. intros n J. rewrite CN in J. destruct (N n) as [-> ->]; [intros ->; apply J; left; reflexivity|]. destruct (Cb n) as [-> ->]; [intros X; apply J; right; exact X|]. rewrite Sa, Sb. auto.
    - intros _ Pn Cl. cbn [cont_len] in Cl. apply W; [exact Cl|]. destruct (Cb _ ND1) as [_ ->]. rewrite Sb. exact Pn.
  Qed.

  (** The fields of the struct, and those computed from them. *)
  Lemma given_cons f l : given_names (f :: l) = (if is_some (fa_calc (fst f)) || fa_pad (fst f) then [] else [fa_name (fst f)]) ++ given_names l.
  Proof. unfold given_names. cbn [filter]. destruct (is_some (fa_calc (fst f)) || fa_pad (fst f)); reflexivity. Qed.
  Lemma refs_ok brk : forall l src c is u c' s m, enc_refs l src c = Some (is, u, c') -> free (ec_rc c) (ec_rc c') s -> In src (sr s) ->
    exists s' m', eg brk c c' is s m s' m' /\ same c c' /\ (forall K, vis_ok K m s -> vis_ok (given_names l ++ K) m' s').
  Proof.
    induction l as [|[a t] l IH]; intros src c is u c' s m H F I; cbn [enc_refs] in H.
    - injection H as <- <- <-. exists s, m. split; [apply eg_nil|]. split; [apply same_refl|]. auto.
    - rewrite given_cons. cbn [fst]. change (match fa_calc a with Some _ => true | None => false end) with (is_some (fa_calc a)) in H. destruct (is_some (fa_calc a) || fa_pad a); [apply (IH _ _ _ _ _ s m H F I)|].
      bnd H i1 r c1 j1 E1. injection E1 as <- <- <-. bnd H i2 u2 c2 j2 E2. unfold tell in E2. injection E2 as <- <- <-. bnd H i3 u3 c3 j3 E3. unfold tell in E3. injection E3 as <- <- <-. cbn [app] in *.
      set (c1 := {| ec_rc := S (ec_rc c); ec_resolved := ec_resolved c; ec_pending := ec_pending c |}) in *. pose proof (m_refs _ _ _ _ _ _ H) as L. change (ec_rc c1) with (S (ec_rc c)) in L.
      set (s1 := add_val s (ec_rc c)). set (m1 := (fa_name a, ec_rc c) :: m). assert (Gr : grows s s1) by apply grows_val.
      destruct (IH _ _ _ _ _ s1 m1 H) as (s' & m' & G & M & K).
      { intros r J. change (ec_rc c1) with (S (ec_rc c)). cbn in J. destruct J as [[<-|J]|J]; [lia| |]; [specialize (F r (or_introl J))|specialize (F r (or_intror J))]; lia. }
      { eapply in_grows; [exact Gr|exact I]. }
      exists s', m'. split; [|split; [exact M|]].
      + change (NGetField (ec_rc c) src [FName (fa_name a)] :: NSetRef (fa_name a) (ec_rc c) :: j3) with ([NGetField (ec_rc c) src [FName (fa_name a)]; NSetRef (fa_name a) (ec_rc c)] ++ j3).
        refine (eg_seq brk c c1 _ _ _ _ _ s1 m1 _ _ _ G). split; [|split; [exact Gr|split]].
        * cbn [escopes escope]. assert (X : val_in s src = true) by (apply has_in, I). rewrite X. unfold renew. rewrite (new_free _ _ _ _ F) by lia. cbn [andb orb ops_in forallb guard keepm]. fold s1. assert (X2 : val_in s1 (ec_rc c) = true) by (apply has_in; left; reflexivity). rewrite X2. reflexivity.
        * change (ec_rc c1) with (S (ec_rc c)). apply win_val. lia.
        * change (ec_rc c1) with (S (ec_rc c)). lia.
      + intros K0 V0. eapply vis_sub; [apply (K (fa_name a :: K0)), vis_set; [eapply vis_grows; [exact Gr|exact V0]|left; reflexivity]|].
        intros n J. cbn [app] in J. destruct J as [<-|J]; [apply in_or_app; right; left; reflexivity|]. apply in_app_or in J as [J|J]; apply in_or_app; [left; exact J|right; right; exact J].
  Qed.
  Definition calcd (l : list (fattr * ty)) : list string := map (fun f => fa_name (fst f)) (filter (fun f => is_some (fa_calc (fst f)) && negb (waits (fst f))) l).
  Lemma calcs_ok brk : forall l known c is u c' s m, enc_calcs l c = Some (is, u, c') -> free (ec_rc c) (ec_rc c') s -> calc_names known l = true -> vis_ok known m s ->
    exists s' m', eg brk c c' is s m s' m' /\ same c c' /\ (forall K, vis_ok K m s -> vis_ok (calcd l ++ K) m' s').
  Proof.
    induction l as [|[a t] l IH]; intros known c is u c' s m H F U V; cbn [enc_calcs] in H.
    - injection H as <- <- <-. exists s, m. split; [apply eg_nil|]. split; [apply same_refl|]. auto.
    - cbn [calc_names] in U. unfold calcd. cbn [filter fst]. fold (calcd l). destruct (fa_calc a) as [e|] eqn:Ec; [|apply (IH known _ _ _ _ s m H F U V)]. cbn [is_some andb].
      unfold waits in *. rewrite Ec in *. destruct (blen_calls e) as [[|b bl]|]; [|apply (IH known _ _ _ _ s m H F U V)|discriminate H]. cbn [negb map fst].
      apply andb_true_iff in U as [U1 U2]. bnd H i1 r c1 j1 E1. bnd H i2 u2 c2 j2 E2. unfold tell in E2. injection E2 as <- <- <-. pose proof (m_eval _ _ _ _ _ E1) as L1. pose proof (m_calcs _ _ _ _ _ H) as L2.
      destruct (eeval_ok brk known _ _ _ _ _ s m E1) as (G1 & _ & M1); [eapply free_sub; [exact F|lia|lia]|exact V|exact U1|].
      set (s1 := add_val s r) in *. set (m1 := (fa_name a, r) :: m). assert (Gr : grows s s1) by apply grows_val.
      destruct (IH (fa_name a :: known) _ _ _ _ s1 m1 H) as (s' & m' & G & M & K); [eapply eg_free; [exact G1|exact F|lia]|exact U2|apply vis_set; [eapply vis_grows; [exact Gr|exact V]|left; reflexivity]|].
      exists s', m'. split; [|split; [eapply same_trans; eassumption|]].
      + eapply eg_seq; [exact G1|]. change ([NSetRef (fa_name a) r] ++ j2) with ([NSetRef (fa_name a) r] ++ j2). refine (eg_seq brk c1 c1 _ _ _ _ _ s1 m1 _ _ _ G). apply eg_one; [|apply grows_refl|apply win_refl|lia]. cbn [escope]. assert (X2 : val_in s1 r = true) by (apply has_in; left; reflexivity). rewrite X2. reflexivity.
      + intros K0 V0. eapply vis_sub; [apply (K (fa_name a :: K0)), vis_set; [eapply vis_grows; [exact Gr|exact V0]|left; reflexivity]|].
        intros n J. cbn [app] in J. destruct J as [<-|J]; [apply in_or_app; right; left; reflexivity|]. apply in_app_or in J as [J|J]; apply in_or_app; [left; exact J|right; right; exact J].
  Qed.
  Lemma ready_split l n : In n (ready_names l) -> In n (calcd l ++ given_names l).
  Proof.
    induction l as [|[a t] l IH]; [intros []|]. unfold ready_names, calcd. cbn [filter map]. rewrite given_cons. cbn [fst]. fold (calcd l). fold (ready_names l). unfold ready at 1. unfold leaf. cbn [fst snd].
    intros J. assert (J' : (n = fa_name a /\ fa_pad a = false /\ waits a = false) \/ In n (ready_names l)). { destruct (fa_pad a); [right; exact J|]. destruct (is_cont t); [right; exact J|]. destruct (waits a); [right; exact J|]. destruct J as [<-|J]; [left; auto|right; exact J]. }
    clear J. destruct J' as [(-> & P0 & W0)|J]; [|specialize (IH J)].
    - rewrite P0, W0. destruct (is_some (fa_calc a)); cbn [andb orb negb map app fst]; [left; reflexivity|]. apply in_or_app. right. left. reflexivity.
    - apply in_app_or in IH as [IH|IH]; apply in_or_app; [left|right; apply in_or_app; right; exact IH]. destruct (is_some (fa_calc a) && negb (waits a)); [right; exact IH|exact IH].
  Qed.

  (** Variants. *)
  Lemma names_ok : forall l c is rs c', enc_names l c = Some (is, rs, c') ->
    is = [] /\ same c c' /\ (ec_rc c <= ec_rc c')%nat /\ map fst rs = leaf_names l /\ NoDup (map snd rs) /\ (forall r, In r (map snd rs) -> (ec_rc c <= r < ec_rc c')%nat).
  Proof.
    induction l as [|[a t] l IH]; intros c is rs c' H; cbn [enc_names] in H.
    - injection H as <- <- <-. repeat (split; [first [reflexivity|apply same_refl|lia|constructor]|]). intros ? [].
    - unfold leaf_names. cbn [filter]. unfold leaf at 1. cbn [fst snd]. destruct (fa_pad a || is_cont t); cbn [negb]; [apply IH, H|].
      bnd H i1 r c1 j1 E1. injection E1 as <- <- <-. bnd H i2 rs' c2 j2 E2. injection H as <- <- <-. apply IH in E2 as (-> & M & L & Nm & ND & B). cbn [ec_rc app map fst snd] in *.
      split; [reflexivity|]. split; [exact M|]. split; [lia|]. split; [f_equal; exact Nm|]. split; [constructor; [intros J; apply B in J; lia|exact ND]|]. intros r [<-|J]; [lia|apply B in J; lia].
  Qed.
  Lemma add_free : forall l s, (forall r, In r l -> new s r = true) -> NoDup l -> exists s', add_vals l s = Some s' /\ grows s s' /\ incl l (sr s') /\ (forall r, In r (sr s') \/ In r (ss s') -> In r l \/ In r (sr s) \/ In r (ss s)).
  Proof.
    induction l as [|x l IH]; intros s Nw Nd; [exists s; split; [reflexivity|]; split; [apply grows_refl|]; split; [intros ? []|]; auto|].
    inversion Nd as [|? ? Nx Nl]; subst. cbn [add_vals]. rewrite (Nw x (or_introl eq_refl)). destruct (IH (add_val s x)) as (s' & E & G & I & U); [|exact Nl|].
    - intros r Ir. specialize (Nw r (or_intror Ir)). unfold new in *. cbn [add_val sr ss has existsb]. assert (Nr : r <> x) by (intros ->; auto). apply Nat.eqb_neq in Nr. fold (has r (sr s)). rewrite Nr. exact Nw.
    - exists s'. split; [exact E|]. split; [eapply grows_trans; [apply grows_val|exact G]|]. split; [intros y [<-|Iy]; [apply G; left; reflexivity|apply I; exact Iy]|].
      intros r Ir. destruct (U r Ir) as [H|[[->|H]|H]]; auto; left; [right|left]; auto.
  Qed.
  Lemma setrefs_ok brk : forall l c is u c' s m, enc_setrefs l c = Some (is, u, c') -> incl (map snd l) (sr s) ->
    exists m', eg brk c c' is s m s m' /\ same c c' /\ (forall K, vis_ok K m s -> vis_ok (map fst l ++ K) m' s).
  Proof.
    induction l as [|[n r] l IH]; intros c is u c' s m H I; cbn [enc_setrefs] in H.
    - injection H as <- <- <-. exists m. split; [apply eg_nil|]. split; [apply same_refl|]. auto.
    - bnd H i1 u1 c1 j1 E1. unfold tell in E1. injection E1 as <- <- <-. cbn [map snd fst] in *. assert (Ir : In r (sr s)) by (apply I; left; reflexivity).
      destruct (IH _ _ _ _ s ((n, r) :: m) H) as (m' & G & M & K); [intros x J; apply I; right; exact J|]. exists m'. split; [|split; [exact M|]].
      + eapply eg_seq; [|exact G]. apply eg_one; [|apply grows_refl|apply win_refl|lia]. cbn [escope]. apply has_in in Ir. unfold val_in. rewrite Ir. reflexivity.
      + intros K0 V0. eapply vis_sub; [apply (K (n :: K0)), vis_set; assumption|]. intros x J. cbn [app] in J. destruct J as [<-|J]; [apply in_or_app; right; left; reflexivity|]. apply in_app_or in J as [J|J]; apply in_or_app; [left; exact J|right; right; exact J].
  Qed.
  Lemma calc_names_all L : forall l known, forallb (fun g : fattr * ty => subset (fvo (fa_calc (fst g))) L) l = true -> incl L known -> calc_names known l = true.
  Proof.
    induction l as [|[a t] l IH]; intros known H I; [reflexivity|]. cbn [forallb fst] in H. apply andb_true_iff in H as [H1 H2]. cbn [calc_names]. destruct (fa_calc a) as [e|]; [|apply IH; assumption]. destruct (waits a); [apply IH; assumption|].
    cbn [fvo] in H1. apply andb_true_iff. split; [|apply IH; [exact H2|apply incl_tl, I]]. apply subset_in. apply subset_in in H1. eapply incl_tran; eassumption.
  Qed.
  Definition var_ok (f : fattr * ty) : Prop := fa_pad (fst f) = false /\ attr_ok [] f = true /\ ewf [] (snd f) = true /\ enames [] (snd f) = true /\ NoDup (cnames f) /\
    forallb (fun g : fattr * ty => subset (fvo (fa_calc (fst g))) (leaf_names (flatten_ty (snd f)))) (flatten_ty (snd f)) = true.
  Lemma variant_ok nm f bt src c is u c' s m : var_ok f -> enc_variant nm (var f) bt src c = Some (is, u, c') -> free (ec_rc c) (ec_rc c') s -> str_in s bt = true -> In src (sr s) ->
    (forall n, In n (cnames f) -> lookup n (ec_resolved c) = None) ->
    exists s' m', eg true c c' is s m s' m' /\ (forall n, ~ In n (cnames f) -> lookup n (ec_resolved c') = lookup n (ec_resolved c)).
  Proof.
    destruct f as [a t]. intros (Pd & AT & WF & EN & ND & CA) H F T I RN. cbn [fst snd] in *. unfold var in H. cbn [fst snd] in H. unfold enc_variant in H.
    bnd H i0 un c0 j0 E0. injection E0 as <- <- <-. cbn [app]. set (c0 := {| ec_rc := S (ec_rc c); ec_resolved := ec_resolved c; ec_pending := ec_pending c |}) in *.
    destruct (is_cont t) eqn:Ct.
    - destruct t as [| | | | | | | | |len tg sub]; try discriminate Ct. rewrite flatten_ty_cont in *.
      cbn [ewf] in WF. apply andb_true_iff in WF as [WF WF5]. apply andb_true_iff in WF as [WF WF4]. apply andb_true_iff in WF as [WF WF3]. apply andb_true_iff in WF as [WF1 WF2]. cbn [app] in WF3, WF4, WF5. rewrite enames_cont in EN. cbn [app] in EN.
      unfold cnames in ND, RN |- *. cbn [is_cont snd fst] in ND, RN |- *. rewrite conts_all in ND, RN |- *. inversion ND as [|? ? ND1 ND2]; subst.
      bnd H i1 rs c1 j1 E1. apply names_ok in E1 as (-> & M1 & L1 & Nm & Nr & B). change (ec_rc c0) with (S (ec_rc c)) in *. bnd H i2 u2 c2 j2 E2. unfold tell in E2. injection E2 as <- <- <-. bnd H i3 u3 c3 j3 E3. bnd H i4 u4 c4 j4 E4. bnd H i5 u5 c5 j5 E5. unfold tell in H. injection H as <- <- <-. cbn [app].
      pose proof (m_setrefs _ _ _ _ _ E3) as L3. pose proof (m_calcs _ _ _ _ _ E4) as L4. assert (L5 : (ec_rc c4 <= ec_rc c5)%nat). { refine (m_its sub bt src false [] _ _ _ _ _ E5). intros ? ? ? []. }
      destruct (add_free (map snd rs) s) as (s1 & A1 & Gr1 & I1 & U1). { intros r J. apply B in J. apply (new_free _ _ _ _ F). lia. } { exact Nr. }
      assert (G1 : eg true c c1 [NUnwrapEnumS nm (fa_name a) src rs] s m s1 m). { apply eg_one; [|exact Gr1| |lia]. - cbn [escope]. apply has_in in I. unfold val_in. rewrite I, A1. reflexivity. - intros r J. destruct (U1 r J) as [J'|[J'|J']]; [right; apply B in J'; lia|left; auto|left; auto]. }
      assert (F1 : free (ec_rc c1) (ec_rc c5) s1) by (eapply eg_free; [exact G1|exact F|lia]).
      destruct (setrefs_ok true _ _ _ _ _ s1 m E3 I1) as (m2 & G2 & M2 & K2).
      assert (V2 : vis_ok (leaf_names (flatten_items sub)) m2 s1). { rewrite <- Nm. eapply vis_sub; [apply (K2 []); intros ? []|]. rewrite app_nil_r. apply incl_refl. }
      assert (F2 : free (ec_rc c3) (ec_rc c5) s1) by (eapply eg_free; [exact G2|exact F1|lia]).
      destruct (calcs_ok true _ (leaf_names (flatten_items sub)) _ _ _ _ s1 m2 E4) as (s3 & m3 & G3 & M3 & K3); [eapply free_sub; [exact F2|lia|lia]|apply (calc_names_all _ _ _ CA), incl_refl|exact V2|].
      assert (V3 : vis_ok (leaf_names (flatten_items sub)) m3 s3). { eapply vis_sub; [apply (K3 _ V2)|]. apply incl_appr, incl_refl. }
      pose proof (eg_grows _ _ _ _ _ _ _ _ G3) as Gr3. assert (Gr : grows s s3) by (eapply grows_trans; [exact Gr1|exact Gr3]).
      assert (VR : vis_ok (ready_names (flatten_items sub)) m3 s3) by (eapply vis_sub; [exact V3|intros n; apply leaf_ready]).
      assert (SM : same c0 c4) by (eapply same_trans; [exact M1|eapply same_trans; [exact M2|exact M3]]).
      destruct (items_ok sub) with (vis := leaf_names sub) (known := ready_names sub) (wt := @None (string * (fattr * ty))) (autos := @nil auto) (T := touched (TCont len tg sub)) (N := all_conts sub) (brk := true) (buf := bt) (src := src) (co := false) (c := c4) (is := i5) (u := u5) (c' := c5) (s := s3) (m := m3) as (s4 & m4 & G4 & C4); try assumption.
      { apply Forall_forall. intros [a' t'] _. apply complex_kall. }
      { intros n. apply leaf_ready. } { apply incl_refl. }
      { intros n J. destruct SM as [-> _]. apply RN. right. exact J. }
      { reflexivity. } { rewrite touched_cont. apply incl_appl, incl_refl. } { rewrite touched_cont. apply incl_appr, incl_refl. } { apply incl_refl. } { exact Logic.I. }
      { eapply eg_free; [exact G3|exact F2|lia]. } { eapply str_grows; [exact Gr|exact T]. } { eapply in_grows; [exact Gr|exact I]. } { eapply vis_sub; [exact VR|intros n; apply ready_flat]. }
      exists s4, m4. split.
      + change (NUnwrapEnumS nm (fa_name a) src rs :: i3 ++ i4 ++ i5 ++ [NBreak]) with ([NUnwrapEnumS nm (fa_name a) src rs] ++ i3 ++ i4 ++ i5 ++ [NBreak]).
        eapply eg_seq; [exact G1|]. eapply eg_seq; [exact G2|]. eapply eg_seq; [exact G3|]. eapply eg_seq; [exact G4|]. apply eg_same. reflexivity.
      + intros n J. destruct C4 as [_ C4]. destruct (C4 n) as [-> _]; [intros X; apply J; right; exact X|]. destruct SM as [-> _]. reflexivity.
    - bnd H i2 u2 c2 j2 E2. unfold tell in E2. injection E2 as <- <- <-. bnd H i3 u3 c3 j3 E3. unfold tell in H. injection H as <- <- <-. cbn [app].
      set (s1 := add_val s (ec_rc c)). assert (Gr : grows s s1) by apply grows_val.
      assert (L3 : (ec_rc c0 <= ec_rc c3)%nat). { refine ((_ : mono _) _ _ _ _ E3). apply m_uncond. intros. eapply m_complex, le_n. } change (ec_rc c0) with (S (ec_rc c)) in L3.
      assert (G1 : eg true c c0 [NUnwrapEnum nm (fa_name a) src (ec_rc c)] s m s1 m). { apply eg_val; [|change (ec_rc c0) with (S (ec_rc c)); lia]. cbn [escope]. apply has_in in I. unfold val_in. rewrite I, (new_free _ _ _ _ F) by lia. reflexivity. }
      unfold attr_ok in AT. cbn [fst snd] in AT. apply andb_true_iff in AT as [AT _]. apply subset_app in AT as [_ AT].
      destruct (uncond_ok [] _ _ _ a t (enc_complex p rf false a t) false true _ _ _ _ _ _ _ _ s1 m (pres_chg _ _) (leaf_kok [] a t Ct (fixed_names _ _ EN)) AT (fun _ => fixed_names _ _ EN) E3) as (s2 & m2 & G2 & C2 & _).
      { eapply eg_free; [exact G1|exact F|]. change (ec_rc c0) with (S (ec_rc c)). lia. } { eapply str_grows; [exact Gr|exact T]. } { left. reflexivity. }
      { split; [intros ? []|]. rewrite (flat_nil _ Ct), (cnames_nil _ _ Ct). split; [intros ? []|]. split; [|intros ? []]. right. destruct t; try reflexivity. discriminate Ct. }
      rewrite (touched_nil _ Ct), (cnames_nil _ _ Ct) in C2. exists s2, m2. split.
      + change (NUnwrapEnum nm (fa_name a) src (ec_rc c) :: i3 ++ [NBreak]) with ([NUnwrapEnum nm (fa_name a) src (ec_rc c)] ++ i3 ++ [NBreak]). eapply eg_seq; [exact G1|]. eapply eg_seq; [exact G2|]. apply eg_same. reflexivity.
      + intros n _. destruct C2 as [_ C2]. destruct (C2 n) as [-> _]; [intros []|reflexivity].
  Qed.
  Lemma m_var nm f bt src : mono (enc_variant nm (var f) bt src).
  Proof.
    unfold var. apply m_variant; [intros; eapply m_complex, le_n|]. intros a t k I x y z. destruct (snd f) as [| | | | | | | | |len tg sub]; try destruct I. apply in_map_iff in I as (g & E & _). injection E as <- <- <-. eapply m_complex, le_n.
  Qed.
  Lemma variants_ok nm bt src : forall items c is u c' s m, Forall var_ok items -> NoDup (all_conts items) -> enc_variants nm (map var items) bt src c = Some (is, u, c') ->
    free (ec_rc c) (ec_rc c') s -> str_in s bt = true -> In src (sr s) -> (forall n, In n (all_conts items) -> lookup n (ec_resolved c) = None) ->
    exists s' m', eg true c c' is s m s' m'.
  Proof.
    induction items as [|f items IH]; intros c is u c' s m VO ND H F T I RN; cbn [map enc_variants] in H.
    - injection H as <- <- <-. exists s, m. apply eg_nil.
    - inversion VO as [|? ? VF VO2]; subst. rewrite all_conts_cons in ND, RN. destruct (NoDup_app_inv _ _ ND) as (ND1 & ND2 & ND3). assert (VF' := VF). destruct VF' as (_ & AT & _). unfold attr_ok in AT. apply andb_true_iff in AT as [AT _]. apply subset_app in AT as [AT _].
      change (fst (fst (fst (var f)))) with (fst f) in H. bnd H i1 o c1 j1 E1. bnd H i2 u2 c2 j2 E2. pose proof (m_cond _ _ _ _ _ E1) as L1.
      assert (L2 : (ec_rc c1 <= ec_rc c2)%nat). { refine ((_ : mono _) _ _ _ _ E2). destruct o; [apply m_bind; [apply m_block, m_var|intros [? ?]; mono]|apply m_var]. }
      assert (L3 : (ec_rc c2 <= ec_rc c')%nat). { refine ((_ : mono _) _ _ _ _ H). apply m_variants. intros v J. apply in_map_iff in J as (g & <- & _). apply m_var. }
      destruct (econd_ok true [] _ _ _ _ _ s m E1) as (s1 & G1 & O1 & M1 & _ & _); [eapply free_sub; [exact F|lia|lia]|intros ? []|exact AT|]. pose proof (eg_grows _ _ _ _ _ _ _ _ G1) as Gr1.
      assert (F1 : free (ec_rc c1) (ec_rc c') s1) by (eapply eg_free; [exact G1|exact F|lia]).
      assert (A : exists s2 m2, eg true c1 c2 i2 s1 m s2 m2 /\ (forall n, ~ In n (cnames f) -> lookup n (ec_resolved c2) = lookup n (ec_resolved c1))).
      { assert (VV : forall is u, enc_variant nm (var f) bt src c1 = Some (is, u, c2) -> exists s2 m2, eg true c1 c2 is s1 m s2 m2 /\ (forall n, ~ In n (cnames f) -> lookup n (ec_resolved c2) = lookup n (ec_resolved c1))).
        { intros is0 u0 E. apply (variant_ok nm f bt src c1 is0 u0 c2 s1 m VF E); [eapply free_sub; [exact F1|lia|lia]|eapply str_grows; [exact Gr1|exact T]|eapply in_grows; [exact Gr1|exact I]|]. intros n J. destruct M1 as [-> _]. apply RN, in_or_app. left. exact J. }
        destruct o as [cr|]; [|apply (VV _ _ E2)]. bnd E2 i3 bb c3 j3 E3. destruct bb as [body ub]. apply block_some in E3 as (ib & ub' & Hb & Eb & ->). injection Eb as -> ->. unfold tell in E2. injection E2 as <- <- <-. cbn [app].
        destruct (VV _ _ Hb) as (s2 & m2 & G2 & C2). exists s1, m2. split; [|exact C2]. apply eg_one; [|apply grows_refl|apply win_refl|exact L2]. rewrite escope_cond. cbn [opt_in] in O1. rewrite O1. destruct G2 as (-> & [_ Gs] & _). apply leave_ok, Gs. }
      destruct A as (s2 & m2 & G2 & C2). pose proof (eg_grows _ _ _ _ _ _ _ _ G2) as Gr2. assert (Gr : grows s s2) by (eapply grows_trans; [exact Gr1|exact Gr2]).
      destruct (IH _ _ _ _ s2 m2 VO2 ND2 H) as (s3 & m3 & G3); [eapply eg_free; [exact G2|exact F1|lia]|eapply str_grows; [exact Gr|exact T]|eapply in_grows; [exact Gr|exact I]| |].
      { intros n J. rewrite C2 by (intros X; exact (ND3 n X J)). destruct M1 as [-> _]. apply RN, in_or_app. right. exact J. }
      exists s3, m3. eapply eg_seq; [exact G1|]. eapply eg_seq; [exact G2|exact G3].
  Qed.
  Definition anyR : ectx -> ectx -> rmap -> rmap -> Prop := fun _ _ _ _ => True.
  Lemma pres_any : pres anyR. Proof. split; intros; exact Logic.I. Qed.
  Lemma nodup_all items : NoDup (all_conts items) -> forall f, In f items -> NoDup (cnames f).
  Proof. induction items as [|g items IH]; [intros _ f []|]. intros ND f [<-|J]; rewrite all_conts_cons in ND; destruct (NoDup_app_inv _ _ ND) as (N1 & N2 & _); [exact N1|apply IH; assumption]. Qed.
  Theorem enc_scoped_ok d code : enc_names_ok d = true -> enc_code p rf d = Some code -> enc_scoped code.
  Proof.
    intros NO H. unfold enc_code in H. set (c0 := {| ec_rc := 0; ec_resolved := []; ec_pending := [] |}) in *. destruct (enc_top p rf d c0) as [[[is u] c']|] eqn:E; [|discriminate H]. injection H as <-.
    unfold enc_top in E. bnd E i1 top c1 j1 E1. injection E1 as <- <- <-. cbn [app]. set (c1 := {| ec_rc := S (ec_rc c0); ec_resolved := ec_resolved c0; ec_pending := ec_pending c0 |}) in *. change (ec_rc c0) with O in E.
    unfold enc_names_ok, enc_wf in NO. apply andb_true_iff in NO as [WF NO]. apply andb_true_iff in WF as [WF W4]. apply andb_true_iff in WF as [WF W3]. apply andb_true_iff in WF as [W1 W2]. apply negb_true_iff in W1, W2.
    set (s0 := {| sr := [0%nat]; ss := [] |}).
    assert (UA : subset (fvo (fa_cond (d_attr d)) ++ xs_fv (fa_xs (d_attr d))) [] = true) by (destruct (fa_cond (d_attr d)); [discriminate W1|exact W3]).
    assert (UP : fa_pad (d_attr d) = true -> subset (ty_fv (d_ty d)) [] = true) by (rewrite W2; discriminate).
    assert (X : forall j Rd s b, gkok [] Rd anyR False (d_attr d) (d_ty d) (enc_complex p rf true (d_attr d) (d_ty d)) -> vis_ok Rd [] s -> (In O (sr s)) -> free 1 (ec_rc c') s -> subset (fvo (cont_len (d_ty d))) [] = true ->
              enc_field (enc_complex p rf true (d_attr d) (d_ty d)) (d_attr d) (d_ty d) b TDirect O false c1 = Some (j, u, c') -> exists st, escopes false j (s, []) = Some st).
    { intros j Rd s b KO VR I F LN H. destruct (field_ok [] Rd anyR False (d_attr d) (d_ty d) _ b false _ _ _ _ _ _ _ s [] pres_any KO UA UP H) as (s' & m' & G & _).
      - exact F. - reflexivity. - exact I.
      - split; [intros ? []|]. split; [exact VR|]. split; [right; exact LN|]. intros n _. reflexivity.
      - exists (s', m'). apply G. }
    assert (F0 : free 1 (ec_rc c') s0) by (intros r J; cbn in J; destruct J as [[<-|[]]|[]]; lia).
    destruct (is_cont (d_ty d)) eqn:Ct.
    - destruct (d_ty d) as [| | | | | | | | |len tg items] eqn:Ed; try discriminate Ct. bnd E i2 u2 c2 j2 E2. injection E2 as <- <- <-. cbn [app] in X |- *. unfold enc_scoped. fold s0.
      destruct tg.
      + apply andb_true_iff in W4 as [W4 W6]. apply andb_true_iff in W4 as [W4 W5]. apply nodup_NoDup in W5.
        apply (X _ [] s0 false); [|intros ? []|left; reflexivity|exact F0|exact W4|exact E]. split; [intros; eapply m_complex, le_n|].
        intros brk tgt src co c is u0 c'' s m H F T I (V & VR & LP & RN). rewrite complex_wrap in H.
        destruct (wrap_ok brk len (d_attr d) tgt (cbody true (d_attr d) true items src co) [] c is u0 c'' s m anyR) with (2 := H) as (s' & m' & ca & cb & G & _); try assumption.
        { intros bt. unfold cbody. apply m_bind; [apply m_block, m_variants; intros v J; apply in_map_iff in J as (g & <- & _); apply m_var|intros [? ?]; mono]. }
        { intros bt c3 i3 u3 c3' s1 E3 M Gr F1 T1. unfold cbody in E3. bnd E3 i4 bb c4 j4 E4. destruct bb as [body ub]. apply block_some in E4 as (ib & ub' & Hb & Eb & ->). injection Eb as -> ->. unfold tell in E3. injection E3 as <- <- <-. cbn [app].
          assert (VO : Forall var_ok items). { apply Forall_forall. intros f J. rewrite forallb_forall in W6, NO. pose proof (W6 f J) as Wf. apply andb_true_iff in Wf as [Wf Wd]. apply andb_true_iff in Wf as [Wf Wc]. apply andb_true_iff in Wf as [Wa Wb]. apply negb_true_iff in Wa.
            split; [exact Wa|]. split; [exact Wb|]. split; [exact Wc|]. split; [apply NO, J|]. split; [apply (nodup_all items W5 f J)|exact Wd]. }
          destruct (variants_ok (fa_name (d_attr d)) bt src items _ _ _ _ s1 m VO W5 Hb) as (s2 & m2 & G2).
          - exact F1. - exact T1. - eapply in_grows; [exact Gr|exact I].
          - intros n J. destruct M as [-> _]. apply RN. unfold cnames. cbn [is_cont snd fst]. rewrite conts_all. right. exact J.
          - exists s1, m2. split; [|exact Logic.I]. apply eg_one; [|apply grows_refl|apply win_refl|apply (eg_le _ _ _ _ _ _ _ _ G2)]. rewrite escope_block. destruct G2 as (-> & [_ Gs] & _). apply leave_ok, Gs. }
        exists s', m'. split; [exact G|]. split; [exact Logic.I|intros []].
      + apply andb_true_iff in W4 as [WE W5]. apply nodup_NoDup in W5. apply andb_true_iff in NO as [EN CN]. rewrite enames_cont in EN. cbn [app] in EN.
        cbn [ewf] in WE. apply andb_true_iff in WE as [WE WF5]. apply andb_true_iff in WE as [WE WF4]. apply andb_true_iff in WE as [WE WF3]. apply andb_true_iff in WE as [_ WF2]. cbn [app] in WF3, WF4, WF5.
        apply (X _ [] s0 false); [|intros ? []|left; reflexivity|exact F0|exact WF2|exact E]. split; [intros; eapply m_complex, le_n|].
        intros brk tgt src co c is u0 c'' s m H F T I (V & VR & LP & RN). rewrite complex_wrap in H.
        destruct (wrap_ok brk len (d_attr d) tgt (cbody true (d_attr d) false items src co) [] c is u0 c'' s m anyR) with (2 := H) as (s' & m' & ca & cb & G & _); try assumption.
        { intros bt. unfold cbody. apply m_bind; [mono|]. intros _. apply m_its. intros ? ? ? []. }
        { intros bt c3 i3 u3 c3' s1 E3 M Gr F1 T1. unfold cbody in E3. bnd E3 i4 u4 c4 j4 E4. bnd E4 i5 u5 c5 j5 E5.
          pose proof (m_refs _ _ _ _ _ _ E5) as L5. pose proof (m_calcs _ _ _ _ _ E4) as L4. assert (L3 : (ec_rc c4 <= ec_rc c3')%nat). { refine (m_its items bt src co [] _ _ _ _ _ E3). intros ? ? ? []. }
          destruct (refs_ok brk _ _ _ _ _ _ s1 m E5) as (s2 & m2 & G2 & M2 & K2); [eapply free_sub; [exact F1|lia|lia]|eapply in_grows; [exact Gr|exact I]|]. pose proof (eg_grows _ _ _ _ _ _ _ _ G2) as Gr2.
          assert (F2 : free (ec_rc c5) (ec_rc c3') s2) by (eapply eg_free; [exact G2|exact F1|lia]).
          assert (V2 : vis_ok (given_names (flatten_items items)) m2 s2). { eapply vis_sub; [apply (K2 []); intros ? []|]. rewrite app_nil_r. apply incl_refl. }
          destruct (calcs_ok brk _ (given_names (flatten_items items)) _ _ _ _ s2 m2 E4) as (s4 & m4 & G4 & M4 & K4); [eapply free_sub; [exact F2|lia|lia]|exact CN|exact V2|]. pose proof (eg_grows _ _ _ _ _ _ _ _ G4) as Gr4.
          assert (VR4 : vis_ok (ready_names (flatten_items items)) m4 s4) by (eapply vis_sub; [apply (K4 _ V2)|intros n; apply ready_split]).
          assert (SM : same c c4) by (eapply same_trans; [exact M|eapply same_trans; eassumption]). assert (Gr' : grows s1 s4) by (eapply grows_trans; eassumption).
          destruct (items_ok items) with (vis := leaf_names items) (known := ready_names items) (wt := @None (string * (fattr * ty))) (autos := @nil auto) (T := touched (TCont len false items)) (N := all_conts items) (brk := brk) (buf := bt) (src := src) (co := co) (c := c4) (is := j4) (u := u3) (c' := c3') (s := s4) (m := m4) as (s5 & m5 & G5 & C5); try assumption.
          { apply Forall_forall. intros [a' t'] _. apply complex_kall. }
          { intros n. apply leaf_ready. } { apply incl_refl. }
          { intros n J. destruct SM as [-> _]. apply RN. unfold cnames. cbn [is_cont snd fst]. rewrite conts_all. right. exact J. }
          { reflexivity. } { rewrite touched_cont. apply incl_appl, incl_refl. } { rewrite touched_cont. apply incl_appr, incl_refl. } { apply incl_refl. } { exact Logic.I. }
          { eapply eg_free; [exact G4|exact F2|lia]. } { eapply str_grows; [exact Gr'|exact T1]. } { eapply in_grows; [exact Gr'|eapply in_grows; [exact Gr|exact I]]. } { eapply vis_sub; [exact VR4|intros n; apply ready_flat]. }
          exists s5, m5. split; [|exact Logic.I]. eapply eg_seq; [eapply eg_seq; [exact G2|exact G4]|exact G5]. }
        exists s', m'. split; [exact G|]. split; [exact Logic.I|intros []].
    - unfold enc_scoped. fold s0. assert (TF : subset (ty_fv (d_ty d)) [] = true). { destruct (d_ty d); first [exact W4|reflexivity|discriminate Ct]. }
      assert (LN : subset (fvo (cont_len (d_ty d))) [] = true). { destruct (d_ty d); first [reflexivity|discriminate Ct]. }
      assert (KO : gkok [] (ready_names (flatten_ty (d_ty d))) anyR False (d_attr d) (d_ty d) (enc_complex p rf true (d_attr d) (d_ty d))) by (apply leaf_gkok; [apply pres_any|exact Ct|exact TF]).
      assert (VR : forall s, vis_ok (ready_names (flatten_ty (d_ty d))) [] s) by (intros s; rewrite (flat_nil _ Ct); intros ? []).
      assert (D : j1 = [] \/ exists j pre, j1 = pre ++ j /\ (pre = [] \/ pre = [NGetField 0 0 [FTup]]) /\ enc_field (enc_complex p rf true (d_attr d) (d_ty d)) (d_attr d) (d_ty d) false TDirect 0 false c1 = Some (j, u, c')).
      { clear X KO VR TF LN W4 NO. destruct (d_ty d); try discriminate Ct; try (left; injection E as <- <- <-; reflexivity); right; bnd E i2 u2 c2 j2 E2; (first [unfold tell in E2; injection E2 as <- <- <- | injection E2 as <- <- <-]); eexists j2, _; (split; [reflexivity|]); (split; [|exact E]); auto. }
      destruct D as [->|(j & pr & -> & Pr & D)]; [eexists; reflexivity|].
      assert (Y : exists s, escopes false pr (s0, []) = Some (s, []) /\ In O (sr s) /\ free 1 (ec_rc c') s).
      { destruct Pr as [->| ->]; [exists s0; split; [reflexivity|]; split; [left; reflexivity|exact F0]|]. exists (add_val s0 0). split; [reflexivity|]. split; [left; reflexivity|]. intros r J. cbn in J. destruct J as [[<-|[<-|[]]]|[]]; lia. }
      destruct Y as (s & Es & Is & Fs). destruct (X j _ s false KO (VR s) Is Fs LN D) as (st & G).
      exists st. rewrite escopes_app, Es. exact G.
  Qed.
End Enc.
