(** What the printer writes is in the grammar. *)
From Verif Require Import Base Scalar Tokens Ast Grammar Print ParseComplete.
Open Scope list_scope.

(** ** Induction over syntax trees *)
Section Ind.
Variables (P : aexpr -> Prop) (Pt : atype -> Prop) (Pv : aenum -> Prop) (Pi : aitem -> Prop) (Pf : afield -> Prop) (Px : axform -> Prop).
Definition Po (o : option aexpr) : Prop := forall e, o = Some e -> P e.
Hypothesis (Hint : forall v t, P (AInt v t)) (Hstr : forall s, P (AStr s)) (Hbool : forall b, P (ABool b)) (Href : forall n, P (ARef n))
  (Henum : forall n v, P (AEnumAccess n v)) (Hcall : forall f args, Forall P args -> P (ACall f args)) (Hindex : forall a i, P a -> P i -> P (AIndex a i))
  (Hmember : forall e m, P e -> P (AMember e m)) (Hun : forall o e, P e -> P (AUn o e)) (Hcast : forall e t, P e -> Pt t -> P (ACast e t))
  (Hbin : forall o a b, P a -> P b -> P (ABin o a b)) (Htern : forall c t f, P c -> P t -> P f -> P (ATern c t f)).
Hypothesis (Hs : forall s, Pt (YScalar s)) (Hf32 : Pt YF32) (Hf64 : Pt YF64) (Hb : Pt YBool) (Hr : forall n args, Forall P args -> Pt (YRef n args))
  (He : forall rep items, Forall (fun x => Pv (snd x)) items -> Pt (YEnum rep items)) (Hbi : forall rep items, Forall (fun x => Po (snd x)) items -> Pt (YBits rep items))
  (Hc : forall len flags items, Po len -> Forall Pi items -> Pt (YCont len flags items)) (Ha : forall t x len, Pt t -> Po len -> Pt (YArr t x len)).
Hypothesis (Hvn : Pv VNone) (Hvd : Pv VDefault) (Hve : forall e, P e -> Pv (VExpr e)) (Hip : forall e, P e -> Pi (IPad e)) (Hif : forall n f, Pf f -> Pi (IField n f))
  (Hf : forall t calc flags cond xs, Pt t -> Po calc -> Po cond -> Forall Px xs -> Pf (AField t calc flags cond xs))
  (Hx : forall n args cond, Forall P args -> Po cond -> Px (AXform n args cond)).
Lemma po_some e : P e -> Po (Some e). Proof. intros H e' E. injection E as <-. exact H. Qed.
Lemma po_none : Po None. Proof. intros e' E. discriminate E. Qed.
Fixpoint ind_e (e : aexpr) : P e :=
  match e with
  | AInt v t => Hint v t | AStr s => Hstr s | ABool b => Hbool b | ARef n => Href n | AEnumAccess n v => Henum n v
  | ACall f args => Hcall f args ((fix go l : Forall P l := match l with [] => Forall_nil _ | x :: l => Forall_cons _ (ind_e x) (go l) end) args)
  | AIndex a i => Hindex a i (ind_e a) (ind_e i)
  | AMember e m => Hmember e m (ind_e e)
  | AUn o e => Hun o e (ind_e e)
  | ACast e t => Hcast e t (ind_e e) (ind_t t)
  | ABin o a b => Hbin o a b (ind_e a) (ind_e b)
  | ATern c t f => Htern c t f (ind_e c) (ind_e t) (ind_e f)
  end
with ind_t (t : atype) : Pt t :=
  match t with
  | YScalar s => Hs s | YF32 => Hf32 | YF64 => Hf64 | YBool => Hb
  | YRef n args => Hr n args ((fix go l : Forall P l := match l with [] => Forall_nil _ | x :: l => Forall_cons _ (ind_e x) (go l) end) args)
  | YEnum rep items => He rep items ((fix go l : Forall (fun x => Pv (snd x)) l := match l with [] => Forall_nil _ | (n, v) :: l => Forall_cons (n, v) (ind_v v) (go l) end) items)
  | YBits rep items => Hbi rep items ((fix go l : Forall (fun x => Po (snd x)) l := match l with [] => Forall_nil _
      | (n, o) :: l => Forall_cons (n, o) (match o with Some e => po_some e (ind_e e) | None => po_none end) (go l) end) items)
  | YCont len flags items => Hc len flags items (match len with Some e => po_some e (ind_e e) | None => po_none end)
      ((fix go l : Forall Pi l := match l with [] => Forall_nil _ | x :: l => Forall_cons _ (ind_i x) (go l) end) items)
  | YArr t x len => Ha t x len (ind_t t) (match len with Some e => po_some e (ind_e e) | None => po_none end)
  end
with ind_v (v : aenum) : Pv v := match v with VNone => Hvn | VDefault => Hvd | VExpr e => Hve e (ind_e e) end
with ind_i (i : aitem) : Pi i := match i with IPad e => Hip e (ind_e e) | IField n f => Hif n f (ind_f f) end
with ind_f (f : afield) : Pf f :=
  match f with
  | AField t calc flags cond xs => Hf t calc flags cond xs (ind_t t) (match calc with Some e => po_some e (ind_e e) | None => po_none end)
      (match cond with Some e => po_some e (ind_e e) | None => po_none end)
      ((fix go l : Forall Px l := match l with [] => Forall_nil _ | x :: l => Forall_cons _ (ind_x x) (go l) end) xs)
  end
with ind_x (x : axform) : Px x :=
  match x with
  | AXform n args cond => Hx n args cond ((fix go l : Forall P l := match l with [] => Forall_nil _ | x :: l => Forall_cons _ (ind_e x) (go l) end) args)
      (match cond with Some e => po_some e (ind_e e) | None => po_none end)
  end.
Lemma ind_all : (forall e, P e) /\ (forall t, Pt t) /\ (forall v, Pv v) /\ (forall i, Pi i) /\ (forall f, Pf f) /\ (forall x, Px x).
Proof. exact (conj ind_e (conj ind_t (conj ind_v (conj ind_i (conj ind_f ind_x))))). Qed.
End Ind.

(** ** Levels *)
Definition g_lvl (k : nat) (e : aexpr) (ts : list token) : Prop := match k with O => g_expr e ts | S l => g_at l e ts end.
Lemma lvl_down j k e ts : (j <= k)%nat -> (k <= 14)%nat -> g_lvl k e ts -> g_lvl j e ts.
Proof.
  induction 1 as [|k L IH]; [auto|]. intros K G. apply IH; [lia|]. destruct k as [|k]; cbn [g_lvl] in *; [apply ge_at; exact G|]. apply ga_tighter; [unfold primary_prec; lia|exact G].
Qed.
Lemma plev_max e : (plev e <= 14)%nat. Proof. destruct e; try match goal with o : binop |- _ => destruct o end; unfold plev, primary_prec, postfix_prec, unary_prec, cast_prec, op_prec; lia. Qed.
Lemma par_ok k e ts : (k <= 14)%nat -> g_lvl (plev e) e ts -> g_lvl k e (par k e ts).
Proof.
  intros K G. unfold par. destruct (Nat.ltb_spec (plev e) k) as [L|L].
  - apply (lvl_down k 14); [exact K|apply le_n|]. cbn [g_lvl]. apply ga_paren. apply (lvl_down 0 (plev e)); [lia|apply plev_max|exact G].
  - apply (lvl_down k (plev e)); [exact L|apply plev_max|exact G].
Qed.
Lemma lvl_expr e ts : g_lvl (plev e) e ts -> g_expr e ts.
Proof. intros G. apply (lvl_down 0 (plev e)) in G; [exact G|lia|apply plev_max]. Qed.
Lemma par_at l e ts : (l <= 13)%nat -> g_lvl (plev e) e ts -> g_at l e (par (S l) e ts).
Proof. intros L G. apply (par_ok (S l)) in G; [exact G|lia]. Qed.

Definition Qe (e : aexpr) := ok_e e = true -> g_lvl (plev e) e (pr e).
Definition Qt (t : atype) := ok_t t = true -> g_type t (prt t).
Definition Qv (v : aenum) := ok_v v = true -> forall first, (first = true -> v <> VNone) -> g_eval first v (prv v).
Definition Qi (i : aitem) := ok_i i = true -> g_item i (pri i).
Definition Qf (f : afield) := ok_f f = true -> g_field f (prf f).
Definition Qx (x : axform) := ok_x x = true -> forall xs txs, g_xforms xs txs -> g_xforms (x :: xs) (prx x ++ txs).

Ltac ands := repeat match goal with H : _ && _ = true |- _ => apply andb_true_iff in H as (? & ?) end.
Lemma join_args es : Forall Qe es -> forallb ok_e es = true -> g_args es (join (map pr es)).
Proof.
  induction 1 as [|e es He _ IH]; cbn [forallb map]; intros K; [constructor|]. ands. destruct es as [|e' es].
  - cbn [map join]. apply gs_one. apply lvl_expr. apply He. assumption.
  - cbn [map] in *. cbn [join]. apply gs_cons; [apply lvl_expr; apply He; assumption|apply IH; assumption].
Qed.
Lemma argopt_ok es : Forall Qe es -> forallb ok_e es = true -> g_argopt es (match es with [] => [] | _ => TOp PLeftParen :: join (map pr es) ++ [TOp PRightParen] end).
Proof. intros F K. destruct es; [constructor|]. apply go_some. apply join_args; assumption. Qed.
Lemma join_enum items : Forall (fun x => Qv (snd x)) items -> forallb (fun x => ok_v (snd x)) items = true -> items <> [] -> forall first,
  (first = true -> match items with (_, VNone) :: _ => False | _ => True end) -> g_enum first items (join (map (fun x => TIdent (fst x) :: prv (snd x)) items)).
Proof.
  induction 1 as [|[n v] items Hv _ IH]; cbn [forallb map fst snd]; intros K N first Fi; [congruence|]. cbn [snd] in Hv. ands.
  assert (G : g_eval first v (prv v)) by (apply Hv; [assumption|]; intros E ->; exact (Fi E)).
  destruct items as [|x items]; [cbn [map join]; apply gn_one; exact G|]. cbn [map] in *. cbn [join app]. apply gn_cons; [exact G|]. apply IH; [assumption|discriminate|discriminate].
Qed.
Lemma join_bits items : Forall (fun x => Po Qe (snd x)) items -> forallb (fun x : name * option aexpr => match snd x with Some e => ok_e e | None => true end) items = true -> items <> [] -> forall first,
  (first = true -> match items with (_, None) :: _ => False | _ => True end) ->
  g_bits first items (join (map (fun x => TIdent (fst x) :: match snd x with Some e => TOp PEqual :: pr e | None => [] end) items)).
Proof.
  induction 1 as [|[n v] items Hv _ IH]; cbn [forallb map fst snd]; intros K N first Fi; [congruence|]. cbn [snd] in Hv. ands.
  assert (G : g_bval first v (match v with Some e => TOp PEqual :: pr e | None => [] end)).
  { destruct v as [e|]; [apply gw_some; apply lvl_expr; apply (Hv e eq_refl); assumption|]. destruct first; [destruct (Fi eq_refl)|constructor]. }
  destruct items as [|x items]; [cbn [map join]; apply gb_one; exact G|]. cbn [map] in *. cbn [join app]. apply gb_cons; [exact G|]. apply IH; [assumption|discriminate|discriminate].
Qed.
Lemma join_items items : Forall Qi items -> forallb ok_i items = true -> g_items items (join (map pri items)).
Proof.
  induction 1 as [|e es He _ IH]; cbn [forallb map]; intros K; [constructor|]. ands. destruct es as [|e' es].
  - cbn [map join]. apply gi_one. apply He. assumption.
  - cbn [map] in *. cbn [join]. apply gi_cons; [apply He; assumption|apply IH; assumption].
Qed.
Lemma cond_ok c : Po Qe c -> match c with Some e => ok_e e | None => true end = true -> g_cond c (match c with Some e => TOp PLeftCurly :: pr e ++ [TOp PRightCurly] | None => [] end).
Proof. intros H K. destruct c as [e|]; [|constructor]. apply gd_some. apply lvl_expr. apply (H e eq_refl). exact K. Qed.
Lemma scalar_tok_ok s : ok_scalar s = true -> exists k, scalar_word s = Some k /\ scalar_tok s = TKw k.
Proof. unfold ok_scalar, scalar_tok. destruct (scalar_word s); [eauto|discriminate]. Qed.

Theorem print_all : (forall e, Qe e) /\ (forall t, Qt t) /\ (forall v, Qv v) /\ (forall i, Qi i) /\ (forall f, Qf f) /\ (forall x, Qx x).
Proof.
  apply ind_all; unfold Qe, Qt, Qv, Qi, Qf, Qx; cbn [ok_e ok_t ok_v ok_i ok_f ok_x pr prt prv pri prf prx plev g_lvl].
  - intros v [s|] _; [|apply ga_int]. destruct s; (eapply (ga_int_typed v {| es_scalar := _; es_endian := Big |}); reflexivity).
  - intros s _. apply ga_str.
  - intros [|] _; [apply ga_true|apply ga_false].
  - intros n _. apply ga_ref.
  - intros n v _. apply ga_enum.
  - intros f args F K. apply ga_call. apply join_args; assumption.
  - intros a i Ia Ii K. ands. apply ga_index; [apply par_at; [unfold postfix_prec; lia|auto]|apply lvl_expr; auto].
  - intros e m Ie K. apply ga_member. apply par_at; [unfold postfix_prec; lia|auto].
  - intros o e Ie K. apply ga_unary. apply par_at; [unfold unary_prec; lia|auto].
  - intros e t Ie It K. ands. apply ga_cast; [apply par_at; [unfold cast_prec; lia|auto]|auto].
  - intros o a b Ia Ib K. ands. assert (L : (op_prec o <= 10)%nat) by (destruct o; cbn; lia). apply ga_binary; [reflexivity| |]; (apply par_at; [lia|auto]).
  - intros c t f Ic It If K. ands. apply ge_ternary; [apply (par_at 0); [lia|auto]|apply lvl_expr; auto|apply (par_at 0); [lia|auto]].
  - intros s K. apply scalar_tok_ok in K as (k & W & ->). apply gt_scalar. exact W.
  - constructor.
  - constructor.
  - constructor.
  - intros n args F K. apply gt_ref. apply argopt_ok; assumption.
  - intros rep items F K. ands. match goal with H : ok_scalar _ = true |- _ => apply scalar_tok_ok in H as (k & W & ->) end. apply gt_enum; [exact W|]. apply join_enum; [exact F|assumption| |].
    + intros ->. discriminate.
    + intros _. destruct items as [|[n []] items]; try exact I. discriminate.
  - intros rep items F K. ands. match goal with H : ok_scalar _ = true |- _ => apply scalar_tok_ok in H as (k & W & ->) end. apply gt_bits; [exact W|]. apply join_bits; [exact F|assumption| |].
    + intros ->. discriminate.
    + intros _. destruct items as [|[n []] items]; try exact I. discriminate.
  - intros len flags items L F K. ands. apply gt_cont; [|apply join_items; assumption]. destruct len as [e|]; [|constructor]. apply gq_some. apply lvl_expr. apply (L e eq_refl). assumption.
  - intros t x len It L K. ands. apply gt_arr; [auto|]. destruct len as [e|].
    + assert (G : g_expr e (pr e)) by (apply lvl_expr; apply (L e eq_refl); assumption). destruct x; [apply gl_upto; exact G|apply gl_fixed; exact G].
    + match goal with H : x = true |- _ => subst x end. apply gl_any.
  - intros _ first N. destruct first; [destruct (N eq_refl eq_refl)|constructor].
  - intros _ first _. constructor.
  - intros e Ie K first _. apply gv_expr. apply lvl_expr. auto.
  - intros e Ie K. apply gm_pad. apply lvl_expr. auto.
  - intros n f If K. apply gm_field. auto.
  - intros t calc flags cond xs It Ic Id Fx K. ands. apply gf_field.
    + auto.
    + destruct calc as [e|]; [|constructor]. ands. apply gc_some. apply lvl_expr. apply (Ic e eq_refl). assumption.
    + apply cond_ok; assumption.
    + clear It Ic Id. match goal with H : forallb _ xs = true |- _ => revert H end. induction Fx as [|x xs Hx _ IH]; cbn [forallb map concat]; intros K; [constructor|]. ands. apply Hx; [assumption|apply IH; assumption].
    + destruct calc; [right|left; reflexivity]. ands. destruct flags; [reflexivity|discriminate].
  - intros n args cond F L K xs txs G. ands. cbn [app]. rewrite <- app_assoc. apply gx_cons; [apply argopt_ok; assumption|apply cond_ok; assumption|exact G].
Qed.
Lemma print_expr_ok e : ok_e e = true -> g_expr e (pr e). Proof. intros K. apply lvl_expr. apply print_all. exact K. Qed.
Lemma print_type_ok t : ok_t t = true -> g_type t (prt t). Proof. apply print_all. Qed.
Lemma print_field_ok f : ok_f f = true -> g_field f (prf f). Proof. apply print_all. Qed.
Lemma print_targ_ok a : ok_targ a = true -> g_targ a (print_targ a).
Proof.
  unfold ok_targ, print_targ. destruct a as [n t [e|]]; cbn; intros K; ands; [apply gta_default; [apply print_type_ok|apply print_expr_ok]; assumption|].
  rewrite app_nil_r. apply gta_plain. apply print_type_ok. assumption.
Qed.
Lemma print_decl_ok d : ok_decl d = true -> g_decl d (print_decl d).
Proof.
  destruct d as [n args f|items from|n k|n t v]; cbn [ok_decl print_decl]; intros K; ands.
  - apply gd_type; [|apply print_field_ok; assumption]. destruct args as [|a args]; [constructor|]. apply gto_some.
    assert (X : forall l, forallb ok_targ l = true -> g_targs l (join (map print_targ l))).
    { induction l as [|x l IH]; cbn [forallb map]; intros K; [constructor|]. ands. destruct l as [|y l]; [apply gts_one; apply print_targ_ok; assumption|].
      cbn [map] in *. cbn [join]. apply gts_cons; [apply print_targ_ok; assumption|apply IH; assumption]. }
    apply X. assumption.
  - apply gd_import. destruct items as [|x items]; [discriminate|]. clear K. revert x. induction items as [|y items IH]; intros x; [apply gim_one|]. cbn [map join] in *. apply gim_cons. apply IH.
  - apply gd_ffi.
  - apply gd_const; [apply print_type_ok|apply print_expr_ok]; assumption.
Qed.
Lemma print_program_ok p : ok_program p = true -> g_program p (print_program p).
Proof.
  unfold ok_program, print_program. induction p as [|d p IH]; cbn [forallb flat_map]; intros K; [constructor|]. ands. rewrite <- app_assoc. apply gp_cons; [apply print_decl_ok; assumption|apply IH; assumption].
Qed.

(** ** Trees in the grammar are printable, and the printer's spelling is a shortest one *)
Notation len := (List.length).
Lemma par_len k e ts : (len ts <= len (par k e ts) <= len ts + 2)%nat.
Proof. unfold par. destruct (plev e <? k)%nat; cbn [len]; rewrite ?app_length; cbn [len]; lia. Qed.
Lemma par_le j k e ts : (j <= k)%nat -> (len (par j e ts) <= len (par k e ts))%nat.
Proof.
  intros L. unfold par. destruct (Nat.ltb_spec (plev e) j), (Nat.ltb_spec (plev e) k); cbn [len]; rewrite ?app_length; cbn [len]; lia.
Qed.
Lemma par_own k e ts : (k <= plev e)%nat -> par k e ts = ts.
Proof. intros L. unfold par. destruct (Nat.ltb_spec (plev e) k); [lia|reflexivity]. Qed.
Ltac cl := cbn [join] in *; repeat (cbn [len] in *; rewrite ?app_length in *); cbn [len] in *; try lia.
Ltac oks := repeat match goal with H : _ /\ _ |- _ => destruct H | H : ?b = true |- context [?b] => rewrite H end; cbn [andb].
Definition argopt_len (es : list aexpr) : nat := len (match es with [] => [] | _ => TOp PLeftParen :: join (map pr es) ++ [TOp PRightParen] end).
Lemma join_cons x l : (len (join (x :: l)) <= len x + 1 + len (join l))%nat.
Proof. destruct l; cbn [join]; cl. Qed.
Theorem grammar_all :
  (forall e ts, g_expr e ts -> ok_e e = true /\ (len (pr e) <= len ts)%nat) /\ (forall l e ts, g_at l e ts -> ok_e e = true /\ (len (par (S l) e (pr e)) <= len ts)%nat) /\
  (forall es ts, g_args es ts -> forallb ok_e es = true /\ (len (join (map pr es)) <= len ts)%nat) /\ (forall es ts, g_argopt es ts -> forallb ok_e es = true /\ (argopt_len es <= len ts)%nat) /\
  (forall t ts, g_type t ts -> ok_t t = true /\ (len (prt t) <= len ts)%nat) /\
  (forall o ts, g_sqopt o ts -> match o with Some e => ok_e e | None => true end = true /\ (len (match o with Some e => TOp PLeftSquare :: pr e ++ [TOp PRightSquare] | None => [] end) <= len ts)%nat) /\
  (forall x o ts, g_len x o ts -> match o with Some e => ok_e e | None => x end = true /\ (len ((if x then [TOp PDotDot] else []) ++ match o with Some e => pr e | None => [] end) <= len ts)%nat) /\
  (forall f l ts, g_enum f l ts -> (l <> [] /\ (f = true -> match l with (_, VNone) :: _ => False | _ => True end)) /\ forallb (fun x => ok_v (snd x)) l = true /\ (len (join (map (fun x => TIdent (fst x) :: prv (snd x)) l)) <= len ts)%nat) /\
  (forall f v ts, g_eval f v ts -> (f = true -> v <> VNone) /\ ok_v v = true /\ (len (prv v) <= len ts)%nat) /\
  (forall f l ts, g_bits f l ts -> (l <> [] /\ (f = true -> match l with (_, None) :: _ => False | _ => True end)) /\ forallb (fun x : name * option aexpr => match snd x with Some e => ok_e e | None => true end) l = true /\
    (len (join (map (fun x => TIdent (fst x) :: match snd x with Some e => TOp PEqual :: pr e | None => [] end) l)) <= len ts)%nat) /\
  (forall f v ts, g_bval f v ts -> (f = true -> v <> None) /\ match v with Some e => ok_e e | None => true end = true /\ (len (match v with Some e => TOp PEqual :: pr e | None => [] end) <= len ts)%nat) /\
  (forall l ts, g_items l ts -> forallb ok_i l = true /\ (len (join (map pri l)) <= len ts)%nat) /\ (forall i ts, g_item i ts -> ok_i i = true /\ (len (pri i) <= len ts)%nat) /\
  (forall f ts, g_field f ts -> ok_f f = true /\ (len (prf f) <= len ts)%nat) /\
  (forall c ts, g_calc c ts -> match c with Some e => ok_e e | None => true end = true /\ (len (match c with Some e => TOp PEqual :: pr e | None => [] end) <= len ts)%nat) /\
  (forall c ts, g_cond c ts -> match c with Some e => ok_e e | None => true end = true /\ (len (match c with Some e => TOp PLeftCurly :: pr e ++ [TOp PRightCurly] | None => [] end) <= len ts)%nat) /\
  (forall l ts, g_xforms l ts -> forallb ok_x l = true /\ (len (concat (map prx l)) <= len ts)%nat).
Proof.
  apply c_all; cbn [ok_e ok_t ok_v ok_i ok_f ok_x forallb pr prt prv pri prf prx map fst snd concat]; unfold primary_prec, postfix_prec, unary_prec, cast_prec.
  - intros e ts _ (K & L). split; [exact K|]. pose proof (par_len 1 e (pr e)). lia.
  - intros c t f tc tt tf _ (Kc & Lc) _ (Kt & Lt) _ (Kf & Lf). split; [rewrite Kc, Kt, Kf; reflexivity|cl].
  - intros l e ts Ll _ (K & L). split; [exact K|]. pose proof (par_le (S l) (S (S l)) e (pr e)). lia.
  - intros l o a b ta tb <- _ (Ka & La) _ (Kb & Lb). split; [rewrite Ka, Kb; reflexivity|]. rewrite par_own by (unfold plev, primary_prec, postfix_prec, unary_prec, cast_prec; lia). cbn [pr]. cl.
  - intros e t te tt _ (Ke & Le) _ (Kt & Lt). split; [rewrite Ke, Kt; reflexivity|]. rewrite par_own by (unfold plev, primary_prec, postfix_prec, unary_prec, cast_prec; lia). cbn [pr]. unfold cast_prec. cl.
  - intros o e te _ (K & L). split; [exact K|]. rewrite par_own by (unfold plev, primary_prec, postfix_prec, unary_prec, cast_prec; lia). cbn [pr]. unfold unary_prec. cl.
  - intros a i ta ti _ (Ka & La) _ (Ki & Li). split; [rewrite Ka, Ki; reflexivity|]. rewrite par_own by (unfold plev, primary_prec, postfix_prec, unary_prec, cast_prec; lia). cbn [pr]. unfold postfix_prec. cl.
  - intros e m te _ (K & L). split; [exact K|]. rewrite par_own by (unfold plev, primary_prec, postfix_prec, unary_prec, cast_prec; lia). cbn [pr]. unfold postfix_prec. cl.
  - intros v. split; [reflexivity|cbn; lia].
  - intros v s k W. split; [reflexivity|cbn; lia].
  - intros s. split; [reflexivity|cbn; lia].
  - split; [reflexivity|cbn; lia].
  - split; [reflexivity|cbn; lia].
  - intros n. split; [reflexivity|cbn; lia].
  - intros n v. split; [reflexivity|cbn; lia].
  - intros f args ts _ (K & L). split; [exact K|]. rewrite par_own by (unfold plev, primary_prec, postfix_prec, unary_prec, cast_prec; lia). cbn [pr]. cl.
  - intros e ts _ (K & L). split; [exact K|]. pose proof (par_len 14 e (pr e)). cl.
  - split; [reflexivity|cbn; lia].
  - intros e te _ (K & L). split; [rewrite K; reflexivity|exact L].
  - intros e te es tes _ (K & L) _ (Ks & Ls). split; [rewrite K, Ks; reflexivity|]. pose proof (join_cons (pr e) (map pr es)). generalize dependent (join (pr e :: map pr es)). intros. cl.
  - split; [reflexivity|cbn; lia].
  - intros es ts _ (K & L). split; [exact K|]. unfold argopt_len. destruct es; cl.
  - intros s k W. split; [unfold ok_scalar; rewrite W; reflexivity|cbn; lia].
  - split; [reflexivity|cbn; lia].
  - split; [reflexivity|cbn; lia].
  - split; [reflexivity|cbn; lia].
  - intros n args ts _ (K & L). split; [exact K|]. unfold argopt_len in L. cl.
  - intros rep k items ts W _ ((N & F) & K & L). split; [|cl]. unfold ok_scalar. rewrite W, K. destruct items as [|[n []] items]; [congruence|destruct (F eq_refl)|reflexivity|reflexivity].
  - intros rep k items ts W _ ((N & F) & K & L). split; [|cl]. unfold ok_scalar. rewrite W, K. destruct items as [|[n []] items]; [congruence|reflexivity|destruct (F eq_refl)].
  - intros o flags items tl ti _ (Kl & Ll) _ (Ki & Li). split; [rewrite Kl, Ki; reflexivity|cl].
  - intros t tt x o tl _ (Kt & Lt) _ (Kl & Ll). split; [rewrite Kt, Kl; reflexivity|cl].
  - split; [reflexivity|cbn; lia].
  - intros e te _ (K & L). split; [exact K|cl].
  - intros e te _ (K & L). split; [exact K|exact L].
  - intros e te _ (K & L). split; [exact K|cl].
  - split; [reflexivity|cbn; lia].
  - intros f n v tv _ (F & K & L). split; [split; [discriminate|]|split; [rewrite K; reflexivity|cl]]. intros E. specialize (F E). destruct v; auto.
  - intros f n v tv _ (F & K & L). split; [split; [discriminate|]|split; [rewrite K; reflexivity|cl]]. intros E. specialize (F E). destruct v; auto.
  - intros f n v tv its ti _ (F & K & L) _ (_ & Ki & Li). split; [split; [discriminate|]|split; [rewrite K, Ki; reflexivity|]]; [intros E; specialize (F E); destruct v; auto|].
    match goal with |- (len (join (?x :: ?l)) <= _)%nat => pose proof (join_cons x l); generalize dependent (join (x :: l)); intros end. cl.
  - split; [discriminate|split; [reflexivity|cbn; lia]].
  - intros f. split; [discriminate|split; [reflexivity|cbn; lia]].
  - intros f e te _ (K & L). split; [discriminate|split; [exact K|cl]].
  - intros f n v tv _ (F & K & L). split; [split; [discriminate|]|split; [rewrite K; reflexivity|cl]]. intros E. specialize (F E). destruct v; auto.
  - intros f n v tv _ (F & K & L). split; [split; [discriminate|]|split; [rewrite K; reflexivity|cl]]. intros E. specialize (F E). destruct v; auto.
  - intros f n v tv its ti _ (F & K & L) _ (_ & Ki & Li). split; [split; [discriminate|]|split; [rewrite K, Ki; reflexivity|]]; [intros E; specialize (F E); destruct v; auto|].
    match goal with |- (len (join (?x :: ?l)) <= _)%nat => pose proof (join_cons x l); generalize dependent (join (x :: l)); intros end. cl.
  - split; [discriminate|split; [reflexivity|cbn; lia]].
  - intros f e te _ (K & L). split; [discriminate|split; [exact K|cl]].
  - split; [reflexivity|cbn; lia].
  - intros i ti _ (K & L). split; [rewrite K; reflexivity|exact L].
  - intros i ti its tis _ (K & L) _ (Ks & Ls). split; [rewrite K, Ks; reflexivity|]. pose proof (join_cons (pri i) (map pri its)). generalize dependent (join (pri i :: map pri its)). intros. cl.
  - intros e te _ (K & L). split; [exact K|cl].
  - intros n f tf _ (K & L). split; [exact K|cl].
  - intros t calc flags cond xs tt tcalc tcond txs _ (Kt & Lt) _ (Kc & Lc) _ (Kd & Ld) _ (Kx & Lx) W. split; [|cl].
    rewrite Kt, Kd, Kx. destruct calc as [e|]; [|reflexivity]. destruct W as [W|W]; [discriminate W|]. rewrite Kc, W. reflexivity.
  - split; [reflexivity|cbn; lia].
  - intros e te _ (K & L). split; [exact K|cl].
  - split; [reflexivity|cbn; lia].
  - intros e te _ (K & L). split; [exact K|cl].
  - split; [reflexivity|cbn; lia].
  - intros n args cond xs ta tc tx _ (Ka & La) _ (Kc & Lc) _ (Kx & Lx). split; [rewrite Ka, Kc, Kx; reflexivity|]. unfold argopt_len in La. cl.
Qed.
Lemma grammar_expr e ts : g_expr e ts -> ok_e e = true /\ (len (pr e) <= len ts)%nat. Proof. apply grammar_all. Qed.
Lemma grammar_type t ts : g_type t ts -> ok_t t = true. Proof. intros G. apply (proj1 (proj2 (proj2 (proj2 (proj2 grammar_all)))) _ _ G). Qed.
Lemma grammar_field t ts : g_field t ts -> ok_f t = true.
Proof. intros G. destruct grammar_all as (_ & _ & _ & _ & _ & _ & _ & _ & _ & _ & _ & _ & _ & H & _). apply (H _ _ G). Qed.
Lemma grammar_program p ts : g_program p ts -> ok_program p = true.
Proof.
  induction 1 as [|d td p tp Gd Gp IH]; [reflexivity|]. cbn [ok_program forallb]. fold (ok_program p). rewrite IH, andb_true_r.
  destruct Gd as [n args targs f tf Ga Gf|items ti from Gi|n k|n t tt v tv Gt Gv]; cbn [ok_decl].
  - rewrite (grammar_field _ _ Gf), andb_true_r. destruct Ga as [|l tl Gl]; [reflexivity|].
    assert (X : forall a ta, g_targ a ta -> ok_targ a = true).
    { intros a ta [? ? ? G|? ? ? ? ? G Ge]; unfold ok_targ; cbn; rewrite (grammar_type _ _ G); [reflexivity|]. rewrite (proj1 (grammar_expr _ _ Ge)). reflexivity. }
    induction Gl as [|a ta G|a ta l tl G Gl IHl]; cbn [forallb]; [reflexivity|rewrite (X _ _ G); reflexivity|rewrite (X _ _ G); apply IHl].
  - destruct Gi; reflexivity.
  - reflexivity.
  - rewrite (grammar_type _ _ Gt), (proj1 (grammar_expr _ _ Gv)). reflexivity.
Qed.
