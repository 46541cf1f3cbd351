(** C30, decoder. *)
From Verif Require Import Base Scalar EnumBits Expr Asg Gen Decode Encode Spec DecRef EncWf ScopeSpec.
From Coq Require Import Lia Bool.
Open Scope string_scope. Open Scope Z_scope. Open Scope list_scope.

Lemma has_in r l : has r l = true <-> In r l.
Proof. unfold has. rewrite existsb_exists. split; [intros (x & I & E); apply Nat.eqb_eq in E as ->; exact I|]. intros I. exists r. split; [exact I|apply Nat.eqb_refl]. Qed.
Lemma mem_in n l : mem n l = true <-> In n l.
Proof. unfold mem. rewrite existsb_exists. split; [intros (x & I & E); apply String.eqb_eq in E as ->; exact I|]. intros I. exists n. split; [exact I|apply String.eqb_refl]. Qed.
Lemma subset_in a b : subset a b = true <-> incl a b.
Proof. unfold subset, incl. rewrite forallb_forall. split; intros H x I; [apply mem_in|apply mem_in]; auto. Qed.
Lemma vals_in_in s l : vals_in s l = true <-> incl l (sr s).
Proof. unfold vals_in, val_in, incl. rewrite forallb_forall. split; intros H x I; [apply has_in|apply has_in]; auto. Qed.

Definition below (rc : nat) (s : scope) : Prop := forall r, In r (sr s) \/ In r (ss s) -> (r < rc)%nat.
Definition vis_ok (vis : list string) (m : list (string * nat)) (s : scope) : Prop := forall n, In n vis -> exists r, lookup n m = Some r /\ In r (sr s).
Definition grows (s s' : scope) : Prop := incl (sr s) (sr s') /\ incl (ss s) (ss s').
Lemma grows_refl s : grows s s. Proof. split; apply incl_refl. Qed.
Lemma grows_trans a b c : grows a b -> grows b c -> grows a c. Proof. intros [A B] [C D]. split; eapply incl_tran; eassumption. Qed.
Lemma grows_val s r : grows s (add_val s r). Proof. split; [apply incl_tl, incl_refl|apply incl_refl]. Qed.
Lemma grows_str s r : grows s (add_str s r). Proof. split; [apply incl_refl|apply incl_tl, incl_refl]. Qed.
Lemma vis_grows vis m s s' : grows s s' -> vis_ok vis m s -> vis_ok vis m s'.
Proof. intros [G _] V n I. destruct (V n I) as (r & L & J). eauto. Qed.
Lemma str_grows s s' t : grows s s' -> str_in s t = true -> str_in s' t = true.
Proof. intros [_ G] H. destruct t; [reflexivity| |]; cbn in *; apply has_in, G, has_in, H. Qed.
Lemma new_below rc s r : below rc s -> (rc <= r)%nat -> new s r = true.
Proof.
  intros B L. unfold new. destruct (has r (sr s)) eqn:H1; [apply has_in in H1; specialize (B r (or_introl H1)); lia|].
  destruct (has r (ss s)) eqn:H2; [apply has_in in H2; specialize (B r (or_intror H2)); lia|]. reflexivity.
Qed.
Lemma below_le a b s : below a s -> (a <= b)%nat -> below b s. Proof. intros B L r I. specialize (B r I). lia. Qed.
Lemma below_val rc s r : below rc s -> (r < rc)%nat -> below rc (add_val s r). Proof. intros B L x [[<-|I]|I]; auto. Qed.
Lemma below_str rc s r : below rc s -> (r < rc)%nat -> below rc (add_str s r). Proof. intros B L x [I|[<-|I]]; auto. Qed.
Lemma fields_ok vis m s e : vis_ok vis m s -> subset (fv e) vis = true -> fields_in s m e = true.
Proof. intros V U. apply subset_in in U. unfold fields_in. apply forallb_forall. intros n I. destruct (V n (U n I)) as (r & -> & J). apply has_in, J. Qed.
Lemma subset_app a b v : subset (a ++ b) v = true <-> subset a v = true /\ subset b v = true.
Proof. unfold subset. rewrite forallb_app, andb_true_iff. reflexivity. Qed.
Lemma dscopes_app a b s : dscopes (a ++ b) s = match dscopes a s with Some s' => dscopes b s' | None => None end.
Proof. revert s. induction a as [|i a IH]; intros s; [reflexivity|]. cbn [app dscopes]. destruct (dscope i s); [apply IH|reflexivity]. Qed.
(** the local fixpoint in [dscope] is [dscopes]. *)
Lemma dscope_cwrap c pre t r x args s : dscope (DCondWrap c pre t r x args) s =
  if val_in s c && str_in s t then match dscopes pre s with Some s' => guard (vals_in s' args && new s r) (add_str s r) | None => None end else None. Proof. reflexivity. Qed.
Lemma dscope_loop t stop term out body s : dscope (DLoop t stop term out body) s =
  if str_in s t && opt_in s stop && opt_in s term && new s out then match dscopes body (add_val s out) with Some _ => Some (add_val s out) | None => None end else None. Proof. reflexivity. Qed.
Lemma dscope_cond tg c body s : dscope (DCond tg c body) s =
  if val_in s c then match dscopes body s with Some s' => if vals_in s' tg then add_vals tg s else None | None => None end else None. Proof. reflexivity. Qed.
Lemma dscope_pred c body s : dscope (DPred c body) s = if val_in s c then match dscopes body s with Some _ => Some s | None => None end else None. Proof. reflexivity. Qed.
Lemma dscopes_one i s : dscopes [i] s = dscope i s. Proof. cbn. destruct (dscope i s); reflexivity. Qed.
Lemma add_vals_ok rc s : forall l, below rc s -> NoDup l -> (forall r, In r l -> (rc <= r)%nat) ->
  exists s', add_vals l s = Some s' /\ grows s s' /\ incl l (sr s') /\ (forall r, In r (sr s') \/ In r (ss s') -> In r l \/ In r (sr s) \/ In r (ss s)).
Proof.
  intros l B. assert (G : forall s0, (forall r, In r l -> new s0 r = true) -> NoDup l -> exists s', add_vals l s0 = Some s' /\ grows s0 s' /\ incl l (sr s') /\ (forall r, In r (sr s') \/ In r (ss s') -> In r l \/ In r (sr s0) \/ In r (ss s0))).
  { induction l as [|x l IH]; intros s0 Nw Nd; [exists s0; split; [reflexivity|]; split; [apply grows_refl|]; split; [intros ? []|]; auto|].
    inversion Nd as [|? ? Nx Nl]; subst. cbn [add_vals]. rewrite (Nw x (or_introl eq_refl)). destruct (IH (add_val s0 x)) as (s' & E & G & I & U); [|exact Nl|].
    - intros r Ir. specialize (Nw r (or_intror Ir)). unfold new in *. cbn [add_val sr ss has existsb]. assert (r <> x) by (intros ->; auto). apply Nat.eqb_neq in H. fold (has r (sr s0)). rewrite H. exact Nw.
    - exists s'. split; [exact E|]. split; [eapply grows_trans; [apply grows_val|exact G]|]. split; [intros y [<-|Iy]; [apply G; left; reflexivity|apply I; exact Iy]|].
      intros r Ir. destruct (U r Ir) as [H|[[->|H]|H]]; auto; left; [right|left]; auto. }
  intros Nd L. apply G; [|exact Nd]. intros r I. eapply new_below; [exact B|apply L, I].
Qed.

Lemma lookup_cons {A} n k (v : A) l : lookup n ((k, v) :: l) = if String.eqb k n then Some v else lookup n l.
Proof. unfold lookup. cbn [find fst]. destruct (String.eqb k n); reflexivity. Qed.
Lemma lookup_in {A} n (v : A) l : lookup n l = Some v -> In (n, v) l.
Proof.
  induction l as [|[k w] l IH]; [discriminate|]. rewrite lookup_cons. destruct (String.eqb k n) eqn:E; [apply String.eqb_eq in E as ->; intros H; injection H as ->; left; reflexivity|]. intros H. right. apply IH, H.
Qed.
Lemma NoDup_app_intro {A} (a b : list A) : NoDup a -> NoDup b -> (forall x, In x a -> In x b -> False) -> NoDup (a ++ b).
Proof.
  induction a as [|x a IH]; intros Na Nb D; [exact Nb|]. inversion Na as [|? ? Nx Na']; subst. cbn [app]. constructor; [|apply IH; [exact Na'|exact Nb|]; intros y I J; apply (D y); [right; exact I|exact J]].
  intros I. apply in_app_or in I as [I|I]; [auto|]. apply (D x); [left; reflexivity|exact I].
Qed.
(** Effect of a piece of generated code. *)
Definition fresh_from (rc : nat) (s s' : scope) : Prop := forall r, In r (sr s') \/ In r (ss s') -> (In r (sr s) \/ In r (ss s)) \/ (rc <= r)%nat.
Definition good (c c' : dctx) (is : list dinstr) (s s' : scope) : Prop :=
  dscopes is s = Some s' /\ grows s s' /\ below (dc_rc c') s' /\ (dc_rc c <= dc_rc c')%nat /\ fresh_from (dc_rc c) s s'.
Lemma good_nil c s : below (dc_rc c) s -> good c c [] s s. Proof. intros B. split; [reflexivity|]. split; [apply grows_refl|]. split; [exact B|]. split; [lia|]. intros r I. left. exact I. Qed.
Lemma good_seq c c1 c2 a b s s1 s2 : good c c1 a s s1 -> good c1 c2 b s1 s2 -> good c c2 (a ++ b) s s2.
Proof.
  intros (A & G & B & L & F) (A' & G' & B' & L' & F'). split; [rewrite dscopes_app, A; exact A'|]. split; [eapply grows_trans; eassumption|]. split; [exact B'|]. split; [lia|].
  intros r I. destruct (F' r I) as [J|J]; [apply F; exact J|right; lia].
Qed.
Lemma new_from s s' r : below (S r) s -> new s r = true -> fresh_from (S r) s s' -> new s' r = true.
Proof.
  intros B N F. unfold new in *. apply andb_true_iff in N as [N1 N2]. apply negb_true_iff in N1, N2.
  assert (X : ~ (In r (sr s') \/ In r (ss s'))). { intros I. destruct (F r I) as [[J|J]|J]; [apply has_in in J; congruence|apply has_in in J; congruence|lia]. }
  destruct (has r (sr s')) eqn:H1; [apply has_in in H1; tauto|]. destruct (has r (ss s')) eqn:H2; [apply has_in in H2; tauto|]. reflexivity.
Qed.
(** one instruction that defines [r], or nothing. *)
Lemma good_val c s i r rc : dscope i s = Some (add_val s r) -> below (dc_rc c) s -> (dc_rc c <= r < rc)%nat -> good c {| dc_rc := rc; dc_map := dc_map c |} [i] s (add_val s r).
Proof.
  intros E B L. split; [rewrite dscopes_one; exact E|]. split; [apply grows_val|]. cbn [dc_rc]. split; [apply below_val; [eapply below_le; [exact B|lia]|lia]|]. split; [lia|].
  intros x [[<-|I]|I]; [right; lia|left; auto|left; auto].
Qed.
Lemma good_str c s i r rc : dscope i s = Some (add_str s r) -> below (dc_rc c) s -> (dc_rc c <= r < rc)%nat -> good c {| dc_rc := rc; dc_map := dc_map c |} [i] s (add_str s r).
Proof.
  intros E B L. split; [rewrite dscopes_one; exact E|]. split; [apply grows_str|]. cbn [dc_rc]. split; [apply below_str; [eapply below_le; [exact B|lia]|lia]|]. split; [lia|].
  intros x [I|[<-|I]]; [left; auto|right; lia|left; auto].
Qed.
Lemma good_same c s i : dscope i s = Some s -> below (dc_rc c) s -> good c c [i] s s.
Proof. intros E B. split; [rewrite dscopes_one; exact E|]. split; [apply grows_refl|]. split; [exact B|]. split; [lia|]. intros x I. left. exact I. Qed.
Lemma good_from c rc m c' is s s' : good {| dc_rc := rc; dc_map := m |} c' is s s' -> (dc_rc c <= rc)%nat -> good c c' is s s'.
Proof. intros (A & G & B & L & F) K. cbn in *. split; [exact A|]. split; [exact G|]. split; [exact B|]. split; [lia|]. intros r I. destruct (F r I); [left; assumption|right; lia]. Qed.
Ltac bnd H i a c j E := apply gbind_some in H as (i & a & c & j & E & H & ->).

Lemma deval_ok vis e c is r c' s : deval e c = Some (is, r, c') -> below (dc_rc c) s -> vis_ok vis (dc_map c) s -> subset (fv e) vis = true ->
  good c c' is s (add_val s r) /\ r = dc_rc c /\ dc_map c' = dc_map c.
Proof.
  intros H B V U. unfold deval, dfresh, dmap, tell, gret, gbind in H. injection H as <- <- <-. split; [|split; reflexivity].
  cbn [app]. apply good_val; [|exact B|lia]. cbn [dscope]. rewrite (fields_ok _ _ _ _ V U), (new_below _ _ _ B (le_n _)). reflexivity.
Qed.
Lemma good_vis vis c c' is s s' : good c c' is s s' -> dc_map c' = dc_map c -> vis_ok vis (dc_map c) s -> vis_ok vis (dc_map c') s'.
Proof. intros (_ & G & _) -> V. eapply vis_grows; [exact G|exact V]. Qed.
Lemma devals_ok vis : forall l c is rs c' s, devals l c = Some (is, rs, c') -> below (dc_rc c) s -> vis_ok vis (dc_map c) s -> subset (fvs l) vis = true ->
  exists s', good c c' is s s' /\ incl rs (sr s') /\ dc_map c' = dc_map c.
Proof.
  induction l as [|e l IH]; intros c is rs c' s H B V U; cbn [devals] in H.
  - injection H as <- <- <-. exists s. split; [apply good_nil, B|]. split; [intros ? []|reflexivity].
  - cbn [fvs flat_map] in U. apply subset_app in U as [U1 U2]. bnd H i1 r c1 j1 E1. bnd H i2 rs' c2 j2 E2. unfold gret in H. injection H as <- <- <-. rewrite app_nil_r.
    destruct (deval_ok _ _ _ _ _ _ _ E1 B V U1) as (G & -> & M). assert (G' := G). destruct G' as (_ & _ & B1 & _).
    destruct (IH _ _ _ _ _ E2 B1 (good_vis _ _ _ _ _ _ G M V) U2) as (s' & G' & I & M').
    exists s'. split; [eapply good_seq; [exact G|exact G']|]. split; [|congruence]. intros x [<-|Ix]; [apply G'; left; reflexivity|auto].
Qed.
Lemma opt_ok o s s' : grows s s' -> opt_in s o = true -> opt_in s' o = true.
Proof. intros [G _] H. destruct o; [|reflexivity]. apply has_in, G, has_in, H. Qed.
Lemma guard_true b s : b = true -> guard b s = Some s. Proof. intros ->. reflexivity. Qed.
(** an optional evaluation. *)
Lemma optval_ok vis (o : option expr) c is r c' s : match o with Some e => gbind (deval e) (fun r => gret (Some r)) | None => gret None end c = Some (is, r, c') ->
  below (dc_rc c) s -> vis_ok vis (dc_map c) s -> subset (fvo o) vis = true -> exists s', good c c' is s s' /\ opt_in s' r = true /\ dc_map c' = dc_map c /\ (r = None <-> o = None).
Proof.
  intros H B V U. destruct o as [e|].
  - bnd H i1 r1 c1 j1 E1. injection H as <- <- <-. rewrite app_nil_r. destruct (deval_ok _ _ _ _ _ _ _ E1 B V U) as (G & _ & M). exists (add_val s r1). split; [exact G|]. split; [apply has_in; left; reflexivity|]. split; [exact M|split; discriminate].
  - injection H as <- <- <-. exists s. split; [apply good_nil, B|]. split; [reflexivity|]. split; [reflexivity|split; reflexivity].
Qed.
Lemma good_below c c' is s s' : good c c' is s s' -> below (dc_rc c') s'. Proof. intros (_ & _ & B & _). exact B. Qed.
Lemma good_grows c c' is s s' : good c c' is s s' -> grows s s'. Proof. intros (_ & G & _). exact G. Qed.
Lemma good_le c c' is s s' : good c c' is s s' -> (dc_rc c <= dc_rc c')%nat. Proof. intros (_ & _ & _ & L & _). exact L. Qed.

Section Dec.
  Variable p : program.
  Variable rf : nat.

  Definition tspec (vis : list string) (src : target) (m : dgen nat) : Prop := forall c is r c' s, m c = Some (is, r, c') -> below (dc_rc c) s -> vis_ok vis (dc_map c) s -> str_in s src = true ->
    exists s', good c c' is s s' /\ In r (sr s') /\ (dc_rc c <= r)%nat /\ dc_map c' = dc_map c.

  Lemma array_ok vis src rec el l : tspec vis src rec -> match l with LFixed e | LTerm e => subset (fv e) vis | LRest => true end = true -> tspec vis src (dec_array p rf rec el l src).
  Proof.
    intros R U c is r c' s H B V T. unfold dec_array in H. bnd H i1 term c1 j1 E1. bnd H i2 len c2 j2 E2.
    assert (A : exists s1, good c c2 (i1 ++ i2) s s1 /\ opt_in s1 term = true /\ opt_in s1 len = true /\ dc_map c2 = dc_map c).
    { destruct l as [e| |e].
      - injection E1 as <- <- <-. destruct (optval_ok vis (Some e) _ _ _ _ s E2 B V U) as (s1 & G & O & M & _). exists s1. cbn [app]. auto.
      - injection E1 as <- <- <-. injection E2 as <- <- <-. exists s. cbn [app]. split; [apply good_nil, B|auto].
      - destruct (optval_ok vis (Some e) _ _ _ _ s E1 B V U) as (s1 & G & O & M & _). injection E2 as <- <- <-. rewrite app_nil_r. exists s1. auto. }
    clear E1 E2. destruct A as (s1 & G1 & Ot & Ol & M1). pose proof (good_grows _ _ _ _ _ G1) as Gr1. pose proof (good_below _ _ _ _ _ G1) as B1. pose proof (good_le _ _ _ _ _ G1) as L1.
    rewrite app_assoc. bnd H i3 out c3 j3 E3. injection E3 as <- <- <-. cbn [app].
    assert (Nw : new s1 (dc_rc c2) = true) by (eapply new_below; [exact B1|lia]). assert (T1 : str_in s1 src = true) by (eapply str_grows; [exact Gr1|exact T]).
    assert (K : forall i0 cc, i0 = [cc] -> dscope cc s1 = Some (add_val s1 (dc_rc c2)) -> r = dc_rc c2 -> c' = {| dc_rc := S (dc_rc c2); dc_map := dc_map c2 |} ->
      exists s', good c c' ((i1 ++ i2) ++ i0) s s' /\ In r (sr s') /\ (dc_rc c <= r)%nat /\ dc_map c' = dc_map c).
    { intros i0 cc -> E -> ->. exists (add_val s1 (dc_rc c2)). split; [eapply good_seq; [exact G1|]; apply good_val; [exact E|exact B1|lia]|]. split; [left; reflexivity|]. split; [lia|exact M1]. }
    destruct (match term with None => kind_of (resolved p rf el) | Some _ => KLoop end).
    - bnd H i4 u4 c4 j4 E4. unfold tell in E4. injection E4 as <- <- <-. injection H as <- <- <-. eapply K; [reflexivity| |reflexivity|reflexivity]. apply guard_true. rewrite T1, Ol, Nw. reflexivity.
    - bnd H i4 u4 c4 j4 E4. unfold tell in E4. injection E4 as <- <- <-. injection H as <- <- <-. eapply K; [reflexivity| |reflexivity|reflexivity]. apply guard_true. rewrite T1, Ol, Nw. reflexivity.
    - bnd H i4 u4 c4 j4 E4. apply block_some in E4 as (ib & ub & Hb & -> & ->). bnd H i5 u5 c5 j5 E5. unfold tell in E5. injection E5 as <- <- <-. injection H as <- <- <-. cbn [app].
      bnd Hb i6 item c6 j6 E6. unfold tell in Hb. injection Hb as <- <- <-.
      assert (Bo : below (S (dc_rc c2)) (add_val s1 (dc_rc c2))) by (apply below_val; [eapply below_le; [exact B1|lia]|lia]).
      destruct (R _ _ _ _ (add_val s1 (dc_rc c2)) E6) as (s2 & (D2 & G2 & B2 & L2 & F2) & I2 & _ & M2); [exact Bo|cbn [dc_map]; rewrite M1; eapply vis_grows; [|exact V]; eapply grows_trans; [exact Gr1|apply grows_val]|eapply str_grows; [apply grows_val|exact T1]|].
      cbn [dc_rc dc_map] in *. exists (add_val s1 (dc_rc c2)). split; [|split; [left; reflexivity|split; [lia|congruence]]]. eapply good_seq; [exact G1|].
      split; [|split; [apply grows_val|split; [eapply below_le; [exact Bo|exact L2]|split; [lia|intros x [[<-|I]|I]; [right; lia|left; auto|left; auto]]]]].
      rewrite dscopes_one, dscope_loop, T1, Ol, Ot, Nw. cbn [andb]. rewrite dscopes_app, D2, dscopes_one. cbn [dscope].
      assert (X1 : val_in s2 (dc_rc c2) = true) by (apply has_in, G2; left; reflexivity). assert (X2 : val_in s2 item = true) by (apply has_in, I2). rewrite X1, X2. reflexivity.
  Qed.
  Lemma type_ok vis : forall t src, subset (ty_fv t) vis = true -> tspec vis src (dec_type p rf t src).
  Proof.
    assert (K : forall src f, (forall c s, str_in s src = true -> below (dc_rc c) s -> dscope (f (dc_rc c)) s = Some (add_val s (dc_rc c))) -> tspec vis src (gbind dfresh (fun o => gbind (tell (f o)) (fun _ => gret o)))).
    { intros src f Hf c is r c' s H B V T. unfold dfresh, tell, gret, gbind in H. injection H as <- <- <-. exists (add_val s (dc_rc c)). split; [cbn [app]; apply good_val; [apply Hf; assumption|exact B|lia]|]. split; [left; reflexivity|]. split; [lia|reflexivity]. }
    assert (K1 : forall src c s, str_in s src = true -> below (dc_rc c) s -> str_in s src && new s (dc_rc c) = true) by (intros src c s T B; rewrite T, (new_below _ _ _ B (le_n _)); reflexivity).
    induction t as [e| | | |d|d|n|n args|el l IH|len tg items IH] using ty_ind'; intros src U; cbn [dec_type].
    - apply K. intros c s T B. apply guard_true, K1; assumption.
    - apply K. intros c s T B. apply guard_true, K1; assumption.
    - apply K. intros c s T B. apply guard_true, K1; assumption.
    - apply K. intros c s T B. apply guard_true, K1; assumption.
    - apply K. intros c s T B. apply guard_true, K1; assumption.
    - apply K. intros c s T B. apply guard_true, K1; assumption.
    - apply K. intros c s T B. apply guard_true. cbn [vals_in forallb]. rewrite andb_true_r. apply K1; assumption.
    - intros c is r c' s H B V T. bnd H i1 o1 c1 j1 E1. injection E1 as <- <- <-. bnd H i2 rs c2 j2 E2. cbn [ty_fv] in U.
      destruct (devals_ok vis _ _ _ _ _ s E2) as (s1 & G1 & I1 & M1); [eapply below_le; [exact B|cbn; lia]|exact V|exact U|]. cbn [dc_map dc_rc app] in *.
      assert (E : exists cc, j2 = [cc] /\ r = dc_rc c /\ c' = c2 /\ dscope cc s1 = guard (str_in s1 src && vals_in s1 rs && new s1 (dc_rc c)) (add_val s1 (dc_rc c))).
      { destruct (p n) as [[at_ ty_ ps]|]; [destruct ty_|]; bnd H i3 u3 c3 j3 E3; unfold tell in E3; injection E3 as <- <- <-; injection H as <- <- <-; eexists; split; try reflexivity; split; try reflexivity; split; reflexivity. }
      destruct E as (cc & -> & -> & -> & D). exists (add_val s1 (dc_rc c)). split; [|split; [left; reflexivity|split; [lia|exact M1]]].
      destruct G1 as (A1 & Gr1 & B1 & L1 & F1). cbn [dc_rc] in *.
      assert (N1 : new s1 (dc_rc c) = true) by (eapply (new_from s); [eapply below_le; [exact B|lia]|eapply new_below; [exact B|lia]|exact F1]).
      split; [|split; [eapply grows_trans; [exact Gr1|apply grows_val]|split; [apply below_val; [exact B1|lia]|split; [lia|]]]].
      + rewrite dscopes_app, A1, dscopes_one, D. apply guard_true. rewrite (str_grows _ _ _ Gr1 T), N1, andb_true_r. apply vals_in_in, I1.
      + intros x Hx. assert (X : x = dc_rc c \/ In x (sr s1) \/ In x (ss s1)) by (destruct Hx as [[<-|]|]; auto). destruct X as [->|X]; [right; lia|]. destruct (F1 x X); [left; assumption|right; lia].
    - cbn [ty_fv] in U. apply subset_app in U as [U1 U2]. intros c is r c' s H B V T. bnd H i1 o1 c1 j1 E1. injection E1 as <- <- <-. cbn [app].
      destruct (array_ok vis src _ el l (IH src U2)) with (c := {| dc_rc := S (dc_rc c); dc_map := dc_map c |}) (is := j1) (r := r) (c' := c') (s := s) as (s' & G & I & L & M); [destruct l; [exact U1|reflexivity|exact U1]|exact H|eapply below_le; [exact B|cbn; lia]|exact V|exact T|].
      exists s'. split; [eapply good_from; [exact G|lia]|]. split; [exact I|]. cbn [dc_rc dc_map] in *. split; [lia|exact M].
    - intros c is r c' s H B V T. bnd H i1 o1 c1 j1 E1. discriminate H.
  Qed.

  (** ** Fields and containers *)
  Definition kspec (vis names : list string) (filled : bool) (k : target -> dgen (list nat)) : Prop := forall src c is em c' s,
    k src c = Some (is, em, c') -> below (dc_rc c) s -> vis_ok vis (dc_map c) s -> str_in s src = true ->
    exists s' nw, good c c' is s s' /\ incl em (sr s') /\ NoDup em /\ (forall r, In r em -> (dc_rc c <= r)%nat) /\ (filled = true -> em <> []) /\
      dc_map c' = nw ++ dc_map c /\ (forall n r, In (n, r) nw -> In r em) /\ (forall n, In n names -> exists r, lookup n nw = Some r).
  Lemma xs_ok vis : forall xs src c is t c' s, dec_xs xs src c = Some (is, t, c') -> below (dc_rc c) s -> vis_ok vis (dc_map c) s -> str_in s src = true -> subset (xs_fv xs) vis = true ->
    exists s', good c c' is s s' /\ str_in s' t = true /\ dc_map c' = dc_map c.
  Proof.
    induction xs as [|x xs IH]; intros src c is t c' s H B V T U; cbn [dec_xs] in H; [injection H as <- <- <-; exists s; split; [apply good_nil, B|auto]|].
    cbn [xs_fv flat_map] in U. apply subset_app in U as [U1 U2]. apply subset_app in U1 as [U0 U1]. bnd H i1 o1 c1 j1 E1.
    destruct (optval_ok vis (x_cond x) _ _ _ _ s E1 B V U0) as (s1 & G1 & O1 & M1 & _). pose proof (good_vis _ _ _ _ _ _ G1 M1 V) as V1. pose proof (good_below _ _ _ _ _ G1) as B1. pose proof (str_grows _ _ _ (good_grows _ _ _ _ _ G1) T) as T1.
    destruct o1 as [rc|].
    - bnd H i2 pa c2 j2 E2. apply block_some in E2 as (pre & args & E2 & -> & ->). bnd H i3 st c3 j3 E3. injection E3 as <- <- <-. bnd H i4 u4 c4 j4 E4. unfold tell in E4. injection E4 as <- <- <-. cbn [app] in *.
      destruct (devals_ok vis _ _ _ _ _ s1 E2 B1 V1 U1) as (s2 & G2 & I2 & M2). destruct G2 as (A2 & Gr2 & B2 & L2 & F2).
      assert (N2 : new s1 (dc_rc c2) = true) by (eapply new_below; [exact B1|lia]).
      assert (G3 : good c1 {| dc_rc := S (dc_rc c2); dc_map := dc_map c2 |} [DCondWrap rc pre src (dc_rc c2) (x_name x) args] s1 (add_str s1 (dc_rc c2))).
      { rewrite M2. apply good_str; [|exact B1|lia]. rewrite dscope_cwrap. cbn [opt_in] in O1. rewrite O1, T1. cbn [andb]. rewrite A2. apply guard_true. rewrite N2, andb_true_r. apply vals_in_in, I2. }
      destruct (IH _ _ _ _ _ (add_str s1 (dc_rc c2)) H (good_below _ _ _ _ _ G3)) as (s' & G' & T' & M'); [cbn [dc_map]; rewrite M2; eapply vis_grows; [apply grows_str|exact V1]|apply has_in; left; reflexivity|exact U2|].
      exists s'. split; [eapply good_seq; [exact G1|]; apply (good_seq _ _ _ [_] _ _ _ _ G3 G')|]. split; [exact T'|cbn [dc_map] in M'; congruence].
    - bnd H i2 args c2 j2 E2. bnd H i3 st c3 j3 E3. injection E3 as <- <- <-. bnd H i4 u4 c4 j4 E4. unfold tell in E4. injection E4 as <- <- <-. cbn [app] in *.
      destruct (devals_ok vis _ _ _ _ _ s1 E2 B1 V1 U1) as (s2 & G2 & I2 & M2). pose proof (good_below _ _ _ _ _ G2) as B2.
      assert (N2 : new s2 (dc_rc c2) = true) by (eapply new_below; [exact B2|lia]).
      assert (G3 : good c2 {| dc_rc := S (dc_rc c2); dc_map := dc_map c2 |} [DWrap src (dc_rc c2) (x_name x) args] s2 (add_str s2 (dc_rc c2))).
      { apply good_str; [|exact B2|lia]. apply guard_true. rewrite N2, (str_grows _ _ _ (good_grows _ _ _ _ _ G2) T1), andb_true_r. apply vals_in_in, I2. }
      destruct (IH _ _ _ _ _ (add_str s2 (dc_rc c2)) H (good_below _ _ _ _ _ G3)) as (s' & G' & T' & M'); [cbn [dc_map]; eapply vis_grows; [apply grows_str|]; eapply good_vis; [exact G2|exact M2|exact V1]|apply has_in; left; reflexivity|exact U2|].
      exists s'. split; [eapply good_seq; [exact G1|]; eapply good_seq; [exact G2|]; apply (good_seq _ _ _ [_] _ _ _ _ G3 G')|]. split; [exact T'|cbn [dc_map] in M'; congruence].
  Qed.
  Lemma xs_fv_rev xs vis : subset (xs_fv xs) vis = true -> subset (xs_fv (rev xs)) vis = true.
  Proof.
    intros U. apply subset_in in U. apply subset_in. intros n I. apply U. unfold xs_fv in *. apply in_flat_map in I as (x & Ix & In'). apply in_flat_map. exists x. split; [apply in_rev, Ix|exact In'].
  Qed.
  Lemma uncond_ok vis names filled k a : kspec vis names filled k -> subset (xs_fv (fa_xs a)) vis = true -> kspec vis names filled (dec_uncond k a).
  Proof.
    intros K U src c is em c' s H B V T. unfold dec_uncond in H. bnd H i1 t1 c1 j1 E1. destruct (xs_ok vis _ _ _ _ _ _ s E1 B V T (xs_fv_rev _ _ U)) as (s1 & G1 & T1 & M1).
    destruct (K _ _ _ _ _ s1 H (good_below _ _ _ _ _ G1) (good_vis _ _ _ _ _ _ G1 M1 V) T1) as (s2 & nw & G2 & I & Nd & Lo & Fi & M2 & Nw & Ns). pose proof (good_le _ _ _ _ _ G1).
    exists s2, nw. split; [eapply good_seq; eassumption|]. split; [exact I|]. split; [exact Nd|]. split; [intros r Ir; specialize (Lo r Ir); lia|]. split; [exact Fi|]. split; [congruence|]. auto.
  Qed.
  Lemma field_ok vis names filled k a : kspec vis names filled k -> subset (fvo (fa_cond a) ++ xs_fv (fa_xs a)) vis = true -> kspec vis names filled (dec_field k a).
  Proof.
    intros K U src c is em c' s H B V T. apply subset_app in U as [U1 U2]. pose proof (uncond_ok vis names filled k a K U2) as KU. unfold dec_field in H. bnd H i1 o1 c1 j1 E1. unfold dec_cond in E1.
    destruct (optval_ok vis (fa_cond a) _ _ _ _ s E1 B V U1) as (s1 & G1 & O1 & M1 & _). pose proof (good_vis _ _ _ _ _ _ G1 M1 V) as V1. pose proof (good_below _ _ _ _ _ G1) as B1. pose proof (str_grows _ _ _ (good_grows _ _ _ _ _ G1) T) as T1. pose proof (good_le _ _ _ _ _ G1) as L1.
    assert (P : dec_uncond k a src c1 = Some (j1, em, c') -> exists s' nw, good c c' (i1 ++ j1) s s' /\ incl em (sr s') /\ NoDup em /\ (forall r, In r em -> (dc_rc c <= r)%nat) /\ (filled = true -> em <> []) /\
      dc_map c' = nw ++ dc_map c /\ (forall n r, In (n, r) nw -> In r em) /\ (forall n, In n names -> exists r, lookup n nw = Some r)).
    { intros Hu. destruct (KU _ _ _ _ _ s1 Hu B1 V1 T1) as (s2 & nw & G2 & I & Nd & Lo & Fi & M2 & Nw & Ns). exists s2, nw. split; [eapply good_seq; eassumption|]. split; [exact I|]. split; [exact Nd|]. split; [intros r Ir; specialize (Lo r Ir); lia|]. split; [exact Fi|]. split; [congruence|]. auto. }
    destruct (fa_pad a); [apply P; exact H|]. destruct o1 as [rc|]; [|apply P; exact H].
    bnd H i2 be c2 j2 E2. apply block_some in E2 as (body & em' & E2 & -> & ->). destruct em' as [|r0 em0]; [discriminate H|]. bnd H i3 u3 c3 j3 E3. unfold tell in E3. injection E3 as <- <- <-. injection H as <- <- <-. cbn [app].
    destruct (KU _ _ _ _ _ s1 E2 B1 V1 T1) as (s2 & nw & (A2 & Gr2 & B2 & L2 & F2) & I & Nd & Lo & Fi & M2 & Nw & Ns).
    destruct (add_vals_ok (dc_rc c1) s1 (r0 :: em0) B1 Nd Lo) as (s3 & A3 & Gr3 & I3 & U3).
    exists s3, nw. split; [eapply good_seq; [exact G1|]|].
    - split; [rewrite dscopes_one, dscope_cond; cbn [opt_in] in O1; rewrite O1, A2; replace (vals_in s2 (r0 :: em0)) with true by (symmetry; apply vals_in_in, I); exact A3|].
      split; [exact Gr3|]. split; [|split; [exact L2|]].
      + intros r Ir. destruct (U3 r Ir) as [X|X]; [apply B2; left; apply I, X|]. specialize (B1 r X). lia.
      + intros r Ir. destruct (U3 r Ir) as [X|X]; [right; apply Lo, X|left; exact X].
    - split; [exact I3|]. split; [exact Nd|]. split; [intros r Ir; specialize (Lo r Ir); lia|]. split; [exact Fi|]. split; [congruence|]. auto.
  Qed.
  Lemma inserts_ok n : forall rs c is u c', dinserts n rs c = Some (is, u, c') -> is = [] /\ dc_rc c' = dc_rc c /\ exists nw, dc_map c' = nw ++ dc_map c /\ (forall m r, In (m, r) nw -> m = n /\ In r rs) /\ (rs <> [] -> exists r, lookup n nw = Some r).
  Proof.
    induction rs as [|r rs IH]; intros c is u c' H; cbn [dinserts] in H.
    - injection H as <- <- <-. split; [reflexivity|]. split; [reflexivity|]. exists []. split; [reflexivity|]. split; [intros ? ? []|]. intros X. destruct (X eq_refl).
    - bnd H i1 u1 c1 j1 E1. injection E1 as <- <- <-. destruct (IH _ _ _ _ H) as (-> & R & nw & M & Nw & Ne). cbn [dc_rc dc_map app] in *. split; [reflexivity|]. split; [exact R|].
      exists (nw ++ [(n, r)]). split; [rewrite <- app_assoc; exact M|]. split; [intros m x Ix; apply in_app_or in Ix as [Ix|[Ix|[]]]; [destruct (Nw _ _ Ix); auto using in_cons|injection Ix as <- <-; split; [reflexivity|left; reflexivity]]|].
      intros _. rewrite lookup_app. destruct (lookup n nw) as [x|]; [eauto|]. rewrite lookup_cons, String.eqb_refl. eauto.
  Qed.
  Lemma names_ok : forall l c is vs c', dec_names l c = Some (is, vs, c') -> is = [] /\ c' = c /\ forall n r, In (n, r) vs -> In n (leaf_names l) /\ lookup n (dc_map c) = Some r.
  Proof.
    induction l as [|[a t] l IH]; intros c is vs c' H; cbn [dec_names] in H; [injection H as <- <- <-; split; [reflexivity|]; split; [reflexivity|]; intros ? ? []|].
    unfold leaf_names. cbn [filter]. unfold leaf at 1. cbn [fst snd]. destruct (fa_pad a || is_cont t) eqn:P; cbn [negb]; [exact (IH _ _ _ _ H)|].
    bnd H i1 r1 c1 j1 E1. unfold dget in E1. destruct (lookup (fa_name a) (dc_map c)) as [r|] eqn:L; [|discriminate E1]. injection E1 as <- <- <-. bnd H i2 rs c2 j2 E2. injection H as <- <- <-. destruct (IH _ _ _ _ E2) as (-> & -> & Q).
    split; [reflexivity|]. split; [reflexivity|]. intros n x [I|I]; [injection I as <- <-; split; [left; reflexivity|exact L]|]. destruct (Q _ _ I). split; [right; assumption|assumption].
  Qed.

  (** What decoding the field [f] makes known. *)
  Definition fnames (f : fattr * ty) : list string := leaf_names (flatten_field f).
  Definition inner (t : ty) : list string := leaf_names (flatten_ty t).
  Definition plain (f : fattr * ty) : bool := negb (fa_pad (fst f)) && negb (is_cont (snd f)).
  Definition isp (f : fattr * ty) : Prop := forall vis, dnames vis (snd f) = true -> kspec vis (if is_cont (snd f) then inner (snd f) else []) (plain f) (dec_complex p rf false (fst f) (snd f)).
  Fixpoint dseqn (vis : list string) (l : list (fattr * ty)) : bool :=
    match l with
    | [] => true
    | (a, t') :: l => subset (fvo (fa_cond a) ++ xs_fv (fa_xs a)) vis && dnames vis t' && dseqn (if is_cont t' || fa_pad a then vis else fa_name a :: vis) l
    end.
  Lemma dnames_cont vis len tg items : dnames vis (TCont len tg items) = negb tg && subset (fvo len) vis && dseqn vis items. Proof. reflexivity. Qed.
  Definition as_items (items : list (fattr * ty)) : list ditem := map (fun f => (fst f, snd f, dec_complex p rf false (fst f) (snd f))) items.

  Lemma items_ok : forall items vis, Forall isp items -> dseqn vis items = true -> kspec vis (leaf_names (flatten_items items)) false (dec_items (as_items items)).
  Proof.
    induction items as [|[a t] items IH]; intros vis Fa D src c is em c' s H B V T; cbn [as_items map dec_items fst snd] in H.
    - injection H as <- <- <-. exists s, []. split; [apply good_nil, B|]. split; [intros ? []|]. split; [constructor|]. split; [intros ? []|]. split; [discriminate|]. split; [reflexivity|]. split; [intros ? ? []|intros ? []].
    - inversion Fa as [|? ? F1 F2]; subst. cbn [dseqn] in D. apply andb_true_iff in D as [D D3]. apply andb_true_iff in D as [D1 D2].
      bnd H i1 em1 c1 j1 E1. bnd H i2 u2 c2 j2 E2. bnd H i3 em3 c3 j3 E3. injection H as <- <- <-.
      destruct (field_ok vis _ _ _ a (F1 vis D2) D1 _ _ _ _ _ s E1 B V T) as (s1 & nw1 & G1 & I1 & Nd1 & Lo1 & Fi1 & M1 & Nw1 & Ns1). cbn [fst snd] in *. unfold plain in Fi1. cbn [fst snd] in Fi1.
      assert (X : i2 = [] /\ dc_rc c2 = dc_rc c1 /\ exists nw2, dc_map c2 = nw2 ++ dc_map c /\ (forall n r, In (n, r) nw2 -> In r em1) /\ (forall n, In n (fnames (a, t)) -> exists r, lookup n nw2 = Some r) /\
        (is_cont t || fa_pad a = false -> exists r, lookup (fa_name a) nw2 = Some r)).
      { unfold fnames, flatten_field. cbn [snd]. destruct (is_cont t) eqn:Ct.
        - injection E2 as <- <- <-. split; [reflexivity|]. split; [reflexivity|]. exists nw1. split; [exact M1|]. split; [exact Nw1|]. split; [exact Ns1|discriminate].
        - destruct (inserts_ok _ _ _ _ _ _ E2) as (-> & R & nw & M & Nw & Ne). split; [reflexivity|]. split; [exact R|]. exists (nw ++ nw1). split; [rewrite M, M1, app_assoc; reflexivity|].
          assert (Q : fa_pad a = false -> exists r, lookup (fa_name a) (nw ++ nw1) = Some r). { intros P. rewrite P in Fi1. cbn in Fi1. destruct Ne as [r Lr]; [apply Fi1; reflexivity|]. exists r. rewrite lookup_app, Lr. reflexivity. }
          split; [intros n r I; apply in_app_or in I as [I|I]; [apply Nw in I as [_ I]; exact I|exact (Nw1 _ _ I)]|]. split; [|intros P; apply Q, P]. intros n I. unfold leaf_names in I. cbn [filter] in I. unfold leaf in I at 1. cbn [fst snd] in I. rewrite Ct, orb_false_r in I. destruct (fa_pad a); [destruct I|]. destruct I as [<-|[]]. apply Q; reflexivity. }
      destruct X as (-> & R2 & nw2 & M2 & Nw2 & Ns2 & Own). cbn [app].
      assert (V2 : vis_ok (if is_cont t || fa_pad a then vis else fa_name a :: vis) (dc_map c2) s1).
      { assert (V0 : vis_ok vis (dc_map c2) s1).
        { intros n I. destruct (V n I) as (r & L & J). rewrite M2, lookup_app. destruct (lookup n nw2) as [x|] eqn:Lx; [|exists r; split; [exact L|apply (good_grows _ _ _ _ _ G1), J]].
          exists x. split; [reflexivity|]. apply I1. eapply Nw2, lookup_in. exact Lx. }
        destruct (is_cont t || fa_pad a) eqn:P; [exact V0|]. intros n [<-|I]; [|apply V0, I]. destruct (Own eq_refl) as [x Lx]. exists x. split; [rewrite M2, lookup_app, Lx; reflexivity|]. apply I1. eapply Nw2, lookup_in. exact Lx. }
      assert (B2 : below (dc_rc c2) s1) by (rewrite R2; apply (good_below _ _ _ _ _ G1)).
      destruct (IH _ F2 D3 _ _ _ _ _ s1 E3 B2 V2 (str_grows _ _ _ (good_grows _ _ _ _ _ G1) T)) as (s3 & nw3 & G3 & I3 & Nd3 & Lo3 & _ & M3 & Nw3 & Ns3).
      pose proof (good_le _ _ _ _ _ G1) as L1. exists s3, (nw3 ++ nw2).
      assert (G3' : good c1 c3 i3 s1 s3) by (destruct G3 as (A & ?); split; [exact A|]; rewrite <- R2; assumption).
      split; [rewrite app_nil_r; eapply good_seq; eassumption|]. split; [apply incl_app; [eapply incl_tran; [exact I1|apply (good_grows _ _ _ _ _ G3)]|exact I3]|].
      split; [|split; [|split; [discriminate|split; [rewrite M3, M2, app_assoc; reflexivity|split]]]].
      + apply NoDup_app_intro; [exact Nd1|exact Nd3|]. intros r J1 J3. specialize (Lo3 r J3). pose proof (good_below _ _ _ _ _ G1 r (or_introl (I1 r J1))). lia.
      + intros r I. apply in_app_or in I as [I|I]; [apply Lo1, I|]. specialize (Lo3 r I). lia.
      + intros n r I. apply in_or_app. apply in_app_or in I as [I|I]; [right; exact (Nw3 _ _ I)|left; exact (Nw2 _ _ I)].
      + intros n I. unfold flatten_items in I. cbn [flat_map] in I. unfold leaf_names in I. rewrite filter_app, map_app in I. rewrite lookup_app. destruct (lookup n nw3) as [x|] eqn:L3; [eauto|].
        apply in_app_or in I as [I|I]; [apply Ns2, I|]. destruct (Ns3 n I) as [y Ly]. congruence.
  Qed.
  (** the reader a container's contents come from. *)
  Lemma buf_ok vis len src c is t c' s : match len with Some e => gbind (deval e) (fun l => gbind dfresh (fun b => gbind (tell (DConstrict src b l)) (fun _ => gret (TStream b)))) | None => gret src end c = Some (is, t, c') ->
    below (dc_rc c) s -> vis_ok vis (dc_map c) s -> str_in s src = true -> subset (fvo len) vis = true -> exists s', good c c' is s s' /\ str_in s' t = true /\ dc_map c' = dc_map c.
  Proof.
    intros H B V T U. destruct len as [e|]; [|injection H as <- <- <-; exists s; split; [apply good_nil, B|auto]].
    bnd H i1 l1 c1 j1 E1. destruct (deval_ok _ _ _ _ _ _ _ E1 B V U) as (G1 & -> & M1). bnd H i2 b2 c2 j2 E2. injection E2 as <- <- <-. bnd H i3 u3 c3 j3 E3. unfold tell in E3. injection E3 as <- <- <-. injection H as <- <- <-. cbn [app].
    pose proof (good_below _ _ _ _ _ G1) as B1. exists (add_str (add_val s (dc_rc c)) (dc_rc c1)). split; [|split; [apply has_in; left; reflexivity|exact M1]]. eapply good_seq; [exact G1|]. apply good_str; [|exact B1|lia]. apply guard_true.
    rewrite (str_grows _ _ _ (good_grows _ _ _ _ _ G1) T), (new_below _ _ _ B1 (le_n _)), andb_true_r. apply has_in. left. reflexivity.
  Qed.
  Lemma pad_ok vis a t : fa_pad a = true -> dnames vis t = true -> forall top, kspec vis [] false (dec_complex p rf top a t).
  Proof.
    intros P D top src c is em c' s H B V T. destruct t as [e| | | |d|d|n|n args|el l|len tg items]; cbn [dec_complex] in H; rewrite P in H; try discriminate H. destruct l as [e| |]; try discriminate H.
    bnd H i1 r1 c1 j1 E1. bnd H i2 u2 c2 j2 E2. unfold tell in E2. injection E2 as <- <- <-. injection H as <- <- <-. cbn [dnames ty_fv] in D. apply subset_app in D as [D _].
    destruct (deval_ok _ _ _ _ _ _ _ E1 B V D) as (G1 & -> & M1). exists (add_val s (dc_rc c)), []. split; [eapply good_seq; [exact G1|]; apply good_same; [|apply (good_below _ _ _ _ _ G1)]; apply guard_true; rewrite (str_grows _ _ _ (good_grows _ _ _ _ _ G1) T); apply has_in; left; reflexivity|].
    split; [intros ? []|]. split; [constructor|]. split; [intros ? []|]. split; [discriminate|]. split; [exact M1|]. split; [intros ? ? []|intros ? []].
  Qed.
  Lemma leaf_type_ok vis a t : fa_pad a = false -> is_cont t = false -> dnames vis t = true -> forall top, kspec vis [] true (dec_complex p rf top a t).
  Proof.
    intros P C D top src c is em c' s H B V T. assert (E : gbind (dec_type p rf t src) (fun r => gret [r]) c = Some (is, em, c')) by (destruct t; try discriminate C; cbn [dec_complex] in H; rewrite P in H; exact H).
    assert (U : subset (ty_fv t) vis = true) by (destruct t; try discriminate C; exact D). bnd E i1 r1 c1 j1 E1. injection E as <- <- <-. rewrite app_nil_r. destruct (type_ok vis t src U _ _ _ _ s E1 B V T) as (s' & G & I & L & M).
    exists s', []. split; [exact G|]. split; [intros x [<-|[]]; exact I|]. split; [constructor; [intros []|constructor]|]. split; [intros x [<-|[]]; exact L|]. split; [discriminate|]. split; [exact M|]. split; [intros ? ? []|intros ? []].
  Qed.
  Lemma complex_ok : forall t a, isp (a, t).
  Proof.
    assert (L : forall t a, is_cont t = false -> isp (a, t)).
    { intros t a C vis D. cbn [fst snd] in *. rewrite C. unfold plain. cbn [fst snd]. rewrite C, andb_true_r. destruct (fa_pad a) eqn:P; cbn [negb]; [apply pad_ok; assumption|apply leaf_type_ok; assumption]. }
    induction t as [e| | | |d|d|n|n args|el l IH|len tg items IH] using ty_ind'; intros a; try (apply L; reflexivity). clear L.
    intros vis D src c is em c' s H B V T. cbn [fst snd is_cont] in *. unfold plain. cbn [fst snd is_cont]. rewrite andb_false_r. rewrite dnames_cont in D. apply andb_true_iff in D as [D D3]. apply andb_true_iff in D as [D1 D2]. apply negb_true_iff in D1. subst tg.
    cbn [dec_complex] in H. destruct (fa_pad a); [discriminate H|]. bnd H i1 b1 c1 j1 E1. destruct (buf_ok vis len src _ _ _ _ s E1 B V T D2) as (s1 & G1 & T1 & M1).
    cbn [negb] in H. bnd H i2 em2 c2 j2 E2. injection H as <- <- <-. rewrite app_nil_r.
    assert (F : Forall isp items) by (eapply Forall_impl; [|exact IH]; intros [a' t'] Ha; apply Ha).
    destruct (items_ok items vis F D3 _ _ _ _ _ s1 E2 (good_below _ _ _ _ _ G1) (good_vis _ _ _ _ _ _ G1 M1 V) T1) as (s2 & nw & G2 & I & Nd & Lo & Fi & M2 & Nw & Ns). pose proof (good_le _ _ _ _ _ G1).
    exists s2, nw. split; [eapply good_seq; eassumption|]. split; [exact I|]. split; [exact Nd|]. split; [intros r Ir; specialize (Lo r Ir); lia|]. split; [discriminate|]. split; [congruence|]. split; [exact Nw|].
    intros n In'. unfold inner in In'. rewrite flatten_ty_cont in In'. apply Ns, In'.
  Qed.
  (** ** The variants of a tagged container *)
  Lemma variant_ok name a t : dnames [] t = true -> subset (xs_fv (fa_xs a)) [] = true -> forall buf c is r c' s,
    dec_variant name a t (dec_complex p rf false a t) buf c = Some (is, r, c') -> below (dc_rc c) s -> str_in s buf = true -> exists s', good c c' is s s' /\ In r (sr s') /\ (dc_rc c <= r)%nat.
  Proof.
    intros D U buf c is r c' s H B T. unfold dec_variant in H. bnd H i1 em c1 j1 E1. bnd H i2 tg c2 j2 E2. injection E2 as <- <- <-.
    destruct (uncond_ok [] _ _ _ a (complex_ok t a [] D) U _ _ _ _ _ s E1 B (fun n (I : In n []) => match I with end) T) as (s1 & nw & G1 & I1 & Nd & Lo & Fi & M1 & Nw & Ns). cbn [fst snd] in *.
    pose proof (good_below _ _ _ _ _ G1) as B1. pose proof (good_le _ _ _ _ _ G1) as L1. assert (Nx : new s1 (dc_rc c1) = true) by (eapply new_below; [exact B1|lia]). destruct (is_cont t).
    - bnd H i3 vs c3 j3 E3. bnd H i4 u4 c4 j4 E4. unfold tell in E4. injection E4 as <- <- <-. injection H as <- <- <-. destruct (names_ok _ _ _ _ _ E3) as (-> & -> & Q). cbn [app dc_map] in *.
      exists (add_val s1 (dc_rc c1)). split; [eapply good_seq; [exact G1|]; apply good_val; [|exact B1|lia]|]. 2: split; [left; reflexivity|lia].
      apply guard_true. rewrite Nx, andb_true_r. apply vals_in_in. intros x Ix. cbn [con_regs] in Ix. apply in_map_iff in Ix as ([n y] & Ey & Iy). cbn in Ey. subst y. destruct (Q _ _ Iy) as [Il Lk]. destruct (Ns n Il) as [y Ly]. rewrite M1, lookup_app, Ly in Lk. injection Lk as <-. apply I1. eapply Nw, lookup_in. exact Ly.
    - destruct em as [|r0 em]; [discriminate H|]. bnd H i4 u4 c4 j4 E4. unfold tell in E4. injection E4 as <- <- <-. injection H as <- <- <-. cbn [app].
      exists (add_val s1 (dc_rc c1)). split; [eapply good_seq; [exact G1|]; apply good_val; [|exact B1|lia]|]. 2: split; [left; reflexivity|lia].
      apply guard_true. rewrite Nx, andb_true_r. apply vals_in_in. intros x [<-|[]]. apply I1. left. reflexivity.
  Qed.
  Lemma variants_ok name : forall items, forallb (fun f => subset (fvo (fa_cond (fst f)) ++ xs_fv (fa_xs (fst f))) [] && dnames [] (snd f)) items = true -> forall buf c is em c' s,
    dec_variants name (as_items items) buf c = Some (is, em, c') -> below (dc_rc c) s -> str_in s buf = true ->
    exists s', good c c' is s s' /\ incl em (sr s') /\ (forall r, In r em -> (dc_rc c <= r)%nat) /\ (List.length em <= 1)%nat.
  Proof.
    induction items as [|[a t] items IH]; intros D buf c is em c' s H B T; cbn [as_items map dec_variants fst snd] in H.
    - bnd H i1 u1 c1 j1 E1. unfold tell in E1. injection E1 as <- <- <-. injection H as <- <- <-. exists s. split; [apply good_same; [reflexivity|exact B]|]. split; [intros ? []|]. split; [intros ? []|cbn; lia].
    - cbn [forallb fst snd] in D. apply andb_true_iff in D as [D D3]. apply andb_true_iff in D as [D1 D2]. apply subset_app in D1 as [D0 D1]. bnd H i1 o1 c1 j1 E1. unfold dec_cond in E1.
      destruct (optval_ok [] (fa_cond a) _ _ _ _ s E1 B (fun n (I : In n []) => match I with end) D0) as (s1 & G1 & O1 & M1 & _). pose proof (good_below _ _ _ _ _ G1) as B1. pose proof (good_le _ _ _ _ _ G1) as L1. pose proof (str_grows _ _ _ (good_grows _ _ _ _ _ G1) T) as T1. destruct o1 as [rc|].
      + bnd H i2 bo c2 j2 E2. apply block_some in E2 as (body & u & E2 & -> & ->). bnd H i3 u3 c3 j3 E3. unfold tell in E3. injection E3 as <- <- <-. cbn [app].
        bnd E2 i4 tg c4 j4 E4. unfold tell in E2. injection E2 as <- <- <-. destruct (variant_ok name a t D2 D1 _ _ _ _ _ s1 E4 B1 T1) as (s2 & (A2 & Gr2 & B2 & L2 & F2) & I2 & Lo2).
        assert (G3 : good c1 c4 [DPred rc (i4 ++ [DReturn tg])] s1 s1).
        { split; [|split; [apply grows_refl|split; [eapply below_le; [exact B1|exact L2]|split; [exact L2|intros x Ix; left; exact Ix]]]]. rewrite dscopes_one, dscope_pred. cbn [opt_in] in O1. rewrite O1, dscopes_app, A2, dscopes_one. cbn [dscope].
          replace (val_in s2 tg) with true by (symmetry; apply has_in, I2). reflexivity. }
        destruct (IH D3 _ _ _ _ _ s1 H (good_below _ _ _ _ _ G3) T1) as (s' & G' & I' & Lo' & Le). pose proof (good_le _ _ _ _ _ G3).
        exists s'. split; [eapply good_seq; [exact G1|]; apply (good_seq _ _ _ [_] _ _ _ _ G3 G')|]. split; [exact I'|]. split; [intros r Ir; specialize (Lo' r Ir); lia|exact Le].
      + bnd H i2 tg c2 j2 E2. injection H as <- <- <-. rewrite app_nil_r. destruct (variant_ok name a t D2 D1 _ _ _ _ _ s1 E2 B1 T1) as (s2 & G2 & I2 & Lo2).
        exists s2. split; [eapply good_seq; eassumption|]. split; [intros x [<-|[]]; exact I2|]. split; [intros x [<-|[]]; lia|cbn; lia].
  Qed.
  (** ** The whole function *)
  Definition kspec' (k : target -> dgen (list nat)) : Prop := forall src c is em c' s, k src c = Some (is, em, c') -> below (dc_rc c) s -> str_in s src = true ->
    exists s', good c c' is s s' /\ incl em (sr s') /\ NoDup em /\ (forall r, In r em -> (dc_rc c <= r)%nat).
  Definition nov m s : vis_ok [] m s := fun n (I : In n []) => match I with end.
  Lemma top_complex_ok a t : match t with TCont len true items => subset (fvo len) [] && forallb (fun f => subset (fvo (fa_cond (fst f)) ++ xs_fv (fa_xs (fst f))) [] && dnames [] (snd f)) items | t => dnames [] t end = true ->
    kspec' (dec_complex p rf true a t).
  Proof.
    intros D src c is em c' s E B T. destruct (is_cont t) eqn:C.
    - destruct t as [| | | | | | | | |len tg items]; try discriminate C. cbn [dec_complex] in E. destruct (fa_pad a); [discriminate E|]. bnd E i1 b1 c1 j1 E1.
      assert (U : subset (fvo len) [] = true) by (destruct tg; [apply andb_true_iff in D as [D _]; exact D|rewrite dnames_cont in D; apply andb_true_iff in D as [D _]; apply andb_true_iff in D as [_ D]; exact D]).
      destruct (buf_ok [] len src _ _ _ _ s E1 B (nov _ _) T U) as (s1 & G1 & T1 & M1). pose proof (good_le _ _ _ _ _ G1) as L1. destruct tg.
      + apply andb_true_iff in D as [_ D]. destruct (variants_ok _ _ D _ _ _ _ _ s1 E (good_below _ _ _ _ _ G1) T1) as (s2 & G2 & I2 & Lo2 & Le). exists s2. split; [eapply good_seq; eassumption|]. split; [exact I2|]. split; [|intros r Ir; specialize (Lo2 r Ir); lia].
        destruct em as [|x [|y em]]; [constructor|constructor; [intros []|constructor]|cbn in Le; lia].
      + rewrite dnames_cont in D. apply andb_true_iff in D as [_ D]. cbn [negb] in E. bnd E i2 em2 c2 j2 E2.
        assert (F : Forall isp items) by (apply Forall_forall; intros [a' t'] _; apply complex_ok).
        destruct (items_ok items [] F D _ _ _ _ _ s1 E2 (good_below _ _ _ _ _ G1) (nov _ _) T1) as (s2 & nw & G2 & I & Nd & Lo & Fi & M2 & Nw & Ns).
        bnd E i3 r3 c3 j3 E3. injection E3 as <- <- <-. bnd E i4 vs c4 j4 E4. destruct (names_ok _ _ _ _ _ E4) as (-> & -> & Q). bnd E i5 u5 c5 j5 E5. unfold tell in E5. injection E5 as <- <- <-. injection E as <- <- <-. cbn [app dc_map] in *.
        pose proof (good_below _ _ _ _ _ G2) as B2. pose proof (good_le _ _ _ _ _ G2) as L2.
        exists (add_val s2 (dc_rc c2)). split; [|split; [intros x [<-|[]]; left; reflexivity|split; [constructor; [intros []|constructor]|intros x [<-|[]]; lia]]].
        eapply good_seq; [exact G1|]. eapply good_seq; [exact G2|]. apply good_val; [|exact B2|lia]. apply guard_true. rewrite (new_below _ _ _ B2 (le_n _)), andb_true_r. apply vals_in_in. intros x Ix. cbn [con_regs] in Ix.
        apply in_map_iff in Ix as ([n y] & Ey & Iy). cbn in Ey. subst y. destruct (Q _ _ Iy) as [Il Lk]. destruct (Ns n Il) as [y Ly]. rewrite M2, lookup_app, Ly in Lk. injection Lk as <-. apply I. eapply Nw, lookup_in. exact Ly.
    - assert (Dn : dnames [] t = true) by (destruct t; try discriminate C; exact D). destruct (fa_pad a) eqn:P.
      + destruct (pad_ok [] _ _ P Dn true _ _ _ _ _ s E B (nov _ _) T) as (s' & nw & G & I & Nd & Lo & _). exists s'. auto.
      + destruct (leaf_type_ok [] _ _ P C Dn true _ _ _ _ _ s E B (nov _ _) T) as (s' & nw & G & I & Nd & Lo & _). exists s'. auto.
  Qed.
  Lemma top_field_ok k a : kspec' k -> subset (fvo (fa_cond a) ++ xs_fv (fa_xs a)) [] = true -> kspec' (dec_field k a).
  Proof.
    intros K U src c is em c' s H B T. apply subset_app in U as [U1 U2].
    assert (KU : kspec' (dec_uncond k a)).
    { clear -K U2. intros src c is em c' s H B T. unfold dec_uncond in H. bnd H i1 t1 c1 j1 E1. destruct (xs_ok [] _ _ _ _ _ _ s E1 B (nov _ _) T (xs_fv_rev _ _ U2)) as (s1 & G1 & T1 & M1).
      destruct (K _ _ _ _ _ s1 H (good_below _ _ _ _ _ G1) T1) as (s2 & G2 & I & Nd & Lo). pose proof (good_le _ _ _ _ _ G1). exists s2. split; [eapply good_seq; eassumption|]. split; [exact I|]. split; [exact Nd|]. intros r Ir. specialize (Lo r Ir). lia. }
    unfold dec_field in H. bnd H i1 o1 c1 j1 E1. unfold dec_cond in E1.
    destruct (optval_ok [] (fa_cond a) _ _ _ _ s E1 B (nov _ _) U1) as (s1 & G1 & O1 & M1 & _). pose proof (good_below _ _ _ _ _ G1) as B1. pose proof (str_grows _ _ _ (good_grows _ _ _ _ _ G1) T) as T1. pose proof (good_le _ _ _ _ _ G1) as L1.
    assert (P : dec_uncond k a src c1 = Some (j1, em, c') -> exists s', good c c' (i1 ++ j1) s s' /\ incl em (sr s') /\ NoDup em /\ (forall r, In r em -> (dc_rc c <= r)%nat)).
    { intros Hu. destruct (KU _ _ _ _ _ s1 Hu B1 T1) as (s2 & G2 & I & Nd & Lo). exists s2. split; [eapply good_seq; eassumption|]. split; [exact I|]. split; [exact Nd|]. intros r Ir. specialize (Lo r Ir). lia. }
    destruct (fa_pad a); [apply P; exact H|]. destruct o1 as [rc|]; [|apply P; exact H].
    bnd H i2 be c2 j2 E2. apply block_some in E2 as (body & em' & E2 & -> & ->). destruct em' as [|r0 em0]; [discriminate H|]. bnd H i3 u3 c3 j3 E3. unfold tell in E3. injection E3 as <- <- <-. injection H as <- <- <-. cbn [app].
    destruct (KU _ _ _ _ _ s1 E2 B1 T1) as (s2 & (A2 & Gr2 & B2 & L2 & F2) & I & Nd & Lo).
    destruct (add_vals_ok (dc_rc c1) s1 (r0 :: em0) B1 Nd Lo) as (s3 & A3 & Gr3 & I3 & U3).
    exists s3. split; [eapply good_seq; [exact G1|]|].
    - split; [rewrite dscopes_one, dscope_cond; cbn [opt_in] in O1; rewrite O1, A2; replace (vals_in s2 (r0 :: em0)) with true by (symmetry; apply vals_in_in, I); exact A3|].
      split; [exact Gr3|]. split; [|split; [exact L2|]].
      + intros r Ir. destruct (U3 r Ir) as [X|X]; [apply B2; left; apply I, X|]. specialize (B1 r X). lia.
      + intros r Ir. destruct (U3 r Ir) as [X|X]; [right; apply Lo, X|left; exact X].
    - split; [exact I3|]. split; [exact Nd|]. intros r Ir. specialize (Lo r Ir). lia.
  Qed.
  Theorem decoder_scoped d code : dec_names_ok d = true -> dec_code p rf d = Some code -> dec_scoped code.
  Proof.
    unfold dec_names_ok, dec_code, dec_scoped. intros D H. apply andb_true_iff in D as [U D].
    destruct (dec_top p rf d {| dc_rc := 0; dc_map := [] |}) as [[[is u] c']|] eqn:E; [|discriminate H]. injection H as <-. unfold dec_top in E. bnd E i1 em c1 j1 E1.
    set (s0 := {| sr := []; ss := [] |} : scope). assert (D0 : match d_ty d with TCont len true items => subset (fvo len) [] && forallb (fun f => subset (fvo (fa_cond (fst f)) ++ xs_fv (fa_xs (fst f))) [] && dnames [] (snd f)) items | _ => dnames [] (d_ty d) end = true) by (destruct (d_ty d) as [| | | | | | | | |? [] ?]; exact D). assert (B0 : below (dc_rc {| dc_rc := 0; dc_map := [] |}) s0) by (intros r [[]|[]]).
    destruct (top_field_ok _ _ (top_complex_ok (d_attr d) (d_ty d) D0) U _ _ _ _ _ s0 E1 B0 eq_refl) as (s1 & G1 & I1 & _).
    destruct (1 <? List.length em)%nat; [discriminate E|]. bnd E i2 vs c2 j2 E2.
    assert (X : exists s2, good c1 c2 i2 s1 s2 /\ incl vs (sr s2)).
    { assert (Same : gret em c1 = Some (i2, vs, c2) -> exists s2, good c1 c2 i2 s1 s2 /\ incl vs (sr s2)) by (intros Hs; injection Hs as <- <- <-; exists s1; split; [apply good_nil, (good_below _ _ _ _ _ G1)|exact I1]).
      assert (Wrap : forall x em', em = x :: em' -> (do r <- dfresh; do _ <- tell (DConstruct r (CTagged (fa_name (d_attr d)) x)); gret [r]) c1 = Some (i2, vs, c2) -> exists s2, good c1 c2 i2 s1 s2 /\ incl vs (sr s2)).
      { intros x em' -> Hw. unfold dfresh, tell, gret, gbind in Hw. injection Hw as <- <- <-. cbn [app]. exists (add_val s1 (dc_rc c1)). split; [|intros y [<-|[]]; left; reflexivity]. pose proof (good_below _ _ _ _ _ G1) as B1.
        apply good_val; [|exact B1|lia]. apply guard_true. rewrite (new_below _ _ _ B1 (le_n _)), andb_true_r. apply vals_in_in. intros y [<-|[]]. apply I1. left. reflexivity. }
      destruct (d_ty d); destruct em as [|x em]; try (apply Same; exact E2); eapply Wrap; try reflexivity; exact E2. }
    destruct X as (s2 & G2 & I2). destruct vs as [|v vs].
    - injection E as <- _ _. exists s2. rewrite app_nil_r. destruct (good_seq _ _ _ _ _ _ _ _ G1 G2) as (A & _). exact A.
    - unfold tell in E. injection E as <- _ _. exists s2. destruct (good_seq _ _ _ _ _ _ _ _ G1 G2) as (A & _). rewrite app_assoc, dscopes_app, A, dscopes_one. apply guard_true, has_in, I2. left. reflexivity.
  Qed.
End Dec.
