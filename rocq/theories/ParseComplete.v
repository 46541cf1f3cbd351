(** Everything in the grammar is accepted, with the tree the grammar gives it. *)
From Verif Require Import Base Scalar Tokens Ast Parse Grammar ParseFacts ParseSound TokFacts.
Open Scope list_scope.

(** ** The parser without fuel: the fixed point of [body] *)
Definition full : recs := fun s ts => parser (S (32 * List.length ts + rank s)) s ts.
Lemma full_more n s ts : fle (parser n s ts) (full s ts).
Proof.
  unfold full. destruct (le_gt_dec n (S (32 * List.length ts + rank s))) as [L|L]; [apply parser_more; exact L|].
  destruct (parser_more (S (32 * List.length ts + rank s)) n s ts) as [H|H]; [lia| |right; congruence].
  exfalso. apply (total (S (32 * List.length ts + rank s)) s ts); [lia|exact H].
Qed.
Lemma full_eq s ts : full s ts = body full s ts.
Proof.
  pose proof (body_mono (parser (32 * List.length ts + rank s)) full (fun s ts => full_more _ s ts) s ts) as [H|H].
  - exfalso. apply (total (S (32 * List.length ts + rank s)) s ts); [lia|exact H].
  - exact H.
Qed.

Global Arguments full : simpl never.

(** ** What may follow *)
(** how tightly a token holds on to the expression before it *)
Definition str (t : token) : nat :=
  match t with
  | TOp PQuestion => 1
  | TOp POr => 2 | TOp PAnd => 3 | TOp PBitOr => 4 | TOp PBitXor => 5 | TOp PBitAnd => 6
  | TOp PEq | TOp PNe => 7 | TOp PLt | TOp PLtEq | TOp PGt | TOp PGtEq => 8 | TOp PShl | TOp PShr | TOp PShrSigned => 9
  | TOp PPlus | TOp PMinus => 10 | TOp PMul | TOp PDiv | TOp PMod => 11 | TOp PCast | TOp PElvis => 12
  | TOp PLeftSquare | TOp PDot => 14
  | TOp PLeftParen | TOp PDoubleColon => 16
  | TKw k => match scalar_kw k with Some _ => 16 | None => 0 end
  | _ => 0
  end%nat.
Definition stop (k : nat) (r : list token) : Prop := match r with [] => False | t :: _ => (str t < k)%nat end.
Lemma stop_le k k' r : (k <= k')%nat -> stop k r -> stop k' r. Proof. destruct r; cbn; [auto|lia]. Qed.
Lemma continues_str t : continues t = false <-> str t = 0%nat.
Proof. destruct t as [| | | | |o|k]; cbn; try (split; reflexivity); [destruct o|destruct k]; cbn; split; try reflexivity; discriminate. Qed.
Lemma str_op o : str (TOp (op_sym o)) = (op_prec o + 2)%nat. Proof. destruct o; reflexivity. Qed.
Lemma level_str l s o : In (s, o) (level_ops l) -> str (TOp s) = (l + 2)%nat.
Proof. intros H. apply level_prec in H as (<- & <- & _). apply str_op. Qed.
Lemma eat_any_op o r : (op_prec o < 10)%nat -> eat_any (level_ops (op_prec o)) (TOp (op_sym o) :: r) = Some (o, r).
Proof. destruct o; cbn; try lia; reflexivity. Qed.
Lemma stop_op l r : stop (l + 2) r -> eat_any (level_ops l) r = None.
Proof.
  intros H. destruct (eat_any (level_ops l) r) as [[o r']|] eqn:E; [|reflexivity]. apply eat_any_some in E as (s & I & ->). apply level_str in I. cbn [stop] in H. lia.
Qed.
Lemma stop_eat k o r : stop k r -> (k <= str (TOp o))%nat -> eat o r = None.
Proof. intros H L. destruct (eat o r) eqn:E; [|reflexivity]. apply eat_some in E. subst r. cbn [stop] in H. lia. Qed.
Lemma stop_scalar k r : stop k r -> (k <= 16)%nat -> parse_scalar r = None.
Proof.
  intros H L. destruct (parse_scalar r) as [[s r']|] eqn:E; [|reflexivity]. apply parse_scalar_ok in E as (w & W & ->). apply scalar_word_kw in W.
  cbn [stop str] in H. rewrite W in H. lia.
Qed.
Lemma stop_peek k o r : stop k r -> (k <= str (TOp o))%nat -> peek_token o r = Ok false.
Proof. intros H L. pose proof (stop_eat _ _ _ H L) as E. destruct r; [destruct H|]. unfold peek_token. rewrite E. reflexivity. Qed.

(** ** Completeness, for every nonterminal at once *)
(** the rest of the work of level [l] after the operand [e]: its loop *)
Definition loop (l : nat) (e : aexpr) (rest : list token) (x : aexpr) (r : list token) : Prop :=
  if (l <? 10)%nat then full (NBinL l e) rest = Ok (x, r)
  else if (l =? 10)%nat then full (NCastL e) rest = Ok (x, r)
  else if (l =? 12)%nat then full (NPostL e) rest = Ok (x, r) /\ skip_sq r = r
  else x = e /\ r = rest.
Definition full_at (l : nat) (ts : list token) : pres aexpr :=
  if (l <=? 10)%nat then full (NBin l) ts else if (l =? 11)%nat then full NUn ts else if (l =? 12)%nat then full NPost ts else full NPrim ts.

(** parts of larger functions, by name *)
Definition item_block (ts : list token) : pres aitem :=
  match eat PDot ts with
  | Some ts =>
      let! (d, ts) := expect_ident ts in
      if eqbl d pad_name then let! ts := expect PColon ts in let! (e, ts) := full NExpr ts in Ok (IPad e, ts)
      else Err (PDirective d)
  | None =>
      let! (n, ts) := expect_ident ts in
      let! ts := expect PColon ts in
      let! (f, ts) := full NField ts in
      Ok (IField n f, ts)
  end.
Definition sq_block (ts : list token) : pres (option aexpr) :=
  match eat PLeftSquare ts with
  | Some ts => let! (e, ts) := full NExpr ts in let! ts := expect PRightSquare ts in Ok (Some e, ts)
  | None => Ok (None, ts)
  end.
Definition bval_block (first : bool) (ts : list token) : pres (option aexpr) :=
  if first then let! ts := expect PEqual ts in let! (e, ts) := full NExpr ts in Ok (Some e, ts)
  else match eat PEqual ts with Some ts => let! (e, ts) := full NExpr ts in Ok (Some e, ts) | None => Ok (None, ts) end.

(** the next token is one of these *)
Definition hd_in (os : list op) (r : list token) : Prop := exists o t, r = TOp o :: t /\ In o os.
Lemma hd_eat os o r : hd_in os r -> ~ In o os -> eat o r = None.
Proof. intros (p & t & -> & I) N. destruct (eat o (TOp p :: t)) eqn:E; [|reflexivity]. apply eat_some in E. injection E as -> _. destruct (N I). Qed.
Lemma hd_stop os r k : hd_in os r -> Forall (fun o => str (TOp o) < k)%nat os -> stop k r.
Proof. intros (p & t & -> & I) F. rewrite Forall_forall in F. exact (F _ I). Qed.
Lemma hd_in_cons o os r : In o os -> hd_in os (TOp o :: r). Proof. intros I. exists o, r. split; [reflexivity|exact I]. Qed.
Lemma hd_weak os os' r : incl os os' -> hd_in os r -> hd_in os' r.
Proof. intros I (o & t & -> & H). exists o, t. split; [reflexivity|apply I; exact H]. Qed.
Definition fin_ops := [PComma; PRightCurly; PSemicolon].
Definition x_ops := PArrow :: fin_ops.
Definition c_ops := PLeftCurly :: x_ops.
Definition f_ops := PPlus :: c_ops.
Definition e_ops := PEqual :: f_ops.
Lemma xforms_hd xs tx r : g_xforms xs tx -> hd_in fin_ops r -> hd_in x_ops (tx ++ r).
Proof. intros G H. destruct G; [eapply hd_weak; [|exact H]; intros ? ?; right; assumption|apply hd_in_cons; left; reflexivity]. Qed.
Lemma cond_hd c tc r : g_cond c tc -> hd_in x_ops r -> hd_in c_ops (tc ++ r).
Proof. intros G H. destruct G; [eapply hd_weak; [|exact H]; intros ? ?; right; assumption|apply hd_in_cons; left; reflexivity]. Qed.
Lemma flags_hd fs r : hd_in c_ops r -> hd_in f_ops (words_flags fs ++ r).
Proof. intros H. destruct fs; [eapply hd_weak; [|exact H]; intros ? ?; right; assumption|apply hd_in_cons; left; reflexivity]. Qed.
Lemma calc_hd c tc r : g_calc c tc -> hd_in f_ops r -> hd_in e_ops (tc ++ r).
Proof. intros G H. destruct G; [eapply hd_weak; [|exact H]; intros ? ?; right; assumption|apply hd_in_cons; left; reflexivity]. Qed.

(** tokens an expression can begin with *)
Definition starter (t : token) : bool :=
  match t with TInt _ | TStr _ | TIdent _ | TKw KTrue | TKw KFalse | TOp (PLeftParen | PNot | PMinus | PBitNot) => true | _ => false end.
Definition prim_starter (t : token) : bool :=
  match t with TInt _ | TStr _ | TIdent _ | TKw KTrue | TKw KFalse | TOp PLeftParen => true | _ => false end.
Lemma at_head l e ts : g_at l e ts -> exists t r, ts = t :: r /\ starter t = true /\ ((12 <= l)%nat -> prim_starter t = true).
Proof.
  induction 1; unfold primary_prec, postfix_prec, unary_prec, cast_prec in *;
    try (first [destruct IHg_at as (t0 & r0 & -> & S0 & P0)|destruct IHg_at1 as (t0 & r0 & -> & S0 & P0)]; cbn [app]; exists t0; eexists; split; [reflexivity|split; [exact S0|intros L; apply P0; lia]]);
    try (eexists; eexists; split; [reflexivity|split; [reflexivity|reflexivity]]).
  eexists; eexists; split; [reflexivity|]. destruct o; (split; [reflexivity|lia]).
Qed.
Lemma expr_head e ts : g_expr e ts -> exists t r, ts = t :: r /\ starter t = true.
Proof. destruct 1 as [e ts G|c t f tc tt tf G]; apply at_head in G as (t0 & r0 & -> & S0 & _); cbn [app]; exists t0; eexists; (split; [reflexivity|exact S0]). Qed.
Lemma expr_eat e ts o r : g_expr e ts -> starter (TOp o) = false -> eat o (ts ++ r) = None.
Proof. intros G N. apply expr_head in G as (t & r0 & -> & S0). cbn [app]. destruct (eat o (t :: r0 ++ r)) eqn:E; [|reflexivity]. apply eat_some in E. injection E as -> _. congruence. Qed.
Lemma expr_eatk e ts k r : g_expr e ts -> starter (TKw k) = false -> eatk k (ts ++ r) = None.
Proof. intros G N. apply expr_head in G as (t & r0 & -> & S0). cbn [app]. destruct (eatk k (t :: r0 ++ r)) eqn:E; [|reflexivity]. apply eatk_some in E. injection E as -> _. congruence. Qed.
Lemma expr_peek e ts o r : g_expr e ts -> starter (TOp o) = false -> peek_token o (ts ++ r) = Ok false.
Proof. intros G N. pose proof (expr_eat _ _ _ r G N) as E. apply expr_head in G as (t & r0 & -> & _). cbn [app] in *. unfold peek_token. rewrite E. reflexivity. Qed.
Lemma take_un_prim e ts r : g_at 12 e ts -> take_un (ts ++ r) = ([], ts ++ r).
Proof. intros G. apply at_head in G as (t & r0 & -> & _ & P). specialize (P (le_n _)). cbn [app take_un]. destruct t as [| | | | |o|]; try reflexivity. destruct o; try reflexivity; discriminate P. Qed.
Lemma full_flags fs r : eat PPlus r = None -> full NFlags (words_flags fs ++ r) = Ok (fs, r).
Proof.
  intros N. induction fs as [|f fs IH]; rewrite full_eq; cbn [body]; unfold p_flags; cbn [words_flags flat_map app]; [rewrite N; reflexivity|].
  rewrite eat_here. cbn [expect_ident bind]. fold (words_flags fs). rewrite IH. reflexivity.
Qed.
Lemma peek_here o r : peek_token o (TOp o :: r) = Ok true. Proof. unfold peek_token. rewrite eat_here. reflexivity. Qed.

Scheme c_expr := Minimality for g_expr Sort Prop with c_at := Minimality for g_at Sort Prop with c_args := Minimality for g_args Sort Prop
with c_argopt := Minimality for g_argopt Sort Prop with c_type := Minimality for g_type Sort Prop with c_sqopt := Minimality for g_sqopt Sort Prop
with c_len := Minimality for g_len Sort Prop with c_enum := Minimality for g_enum Sort Prop with c_eval := Minimality for g_eval Sort Prop
with c_bits := Minimality for g_bits Sort Prop with c_bval := Minimality for g_bval Sort Prop with c_items := Minimality for g_items Sort Prop
with c_item := Minimality for g_item Sort Prop with c_field := Minimality for g_field Sort Prop with c_calc := Minimality for g_calc Sort Prop
with c_cond := Minimality for g_cond Sort Prop with c_xforms := Minimality for g_xforms Sort Prop.
Combined Scheme c_all from c_expr, c_at, c_args, c_argopt, c_type, c_sqopt, c_len, c_enum, c_eval, c_bits, c_bval, c_items, c_item, c_field, c_calc, c_cond, c_xforms.

Definition Pexpr (e : aexpr) (ts : list token) := forall rest, stop 1 rest -> full NExpr (ts ++ rest) = Ok (e, rest).
Definition Pat (l : nat) (e : aexpr) (ts : list token) := forall rest x r, stop (l + 3) rest -> loop l e rest x r -> full_at l (ts ++ rest) = Ok (x, r).
Definition Pargs (es : list aexpr) (ts : list token) := forall rest, full NArgs (ts ++ TOp PRightParen :: rest) = Ok (es, rest).
Definition Pargopt (es : list aexpr) (ts : list token) := forall rest, eat PLeftParen rest = None -> p_arguments full (ts ++ rest) = Ok (es, rest).
Definition Ptype (t : atype) (ts : list token) := forall rest x r, eat PLeftParen rest = None -> full (NTypeL t) rest = Ok (x, r) -> full NType (ts ++ rest) = Ok (x, r).
Definition Psqopt (o : option aexpr) (ts : list token) := forall rest, eat PLeftSquare rest = None -> sq_block (ts ++ rest) = Ok (o, rest).
Definition Plen (x : bool) (l : option aexpr) (ts : list token) := forall rest, p_len full (ts ++ TOp PRightSquare :: rest) = Ok ((x, l), TOp PRightSquare :: rest).
Definition Penum (first : bool) (its : list (name * aenum)) (ts : list token) := forall rest, full (NEnum first) (ts ++ TOp PRightCurly :: rest) = Ok (its, TOp PRightCurly :: rest).
Definition Peval (first : bool) (v : aenum) (ts : list token) := forall rest, stop 1 rest -> eat PEqual rest = None -> p_enum_value full first (ts ++ rest) = Ok (v, rest).
Definition Pbits (first : bool) (its : list (name * option aexpr)) (ts : list token) := forall rest, full (NBits first) (ts ++ TOp PRightCurly :: rest) = Ok (its, TOp PRightCurly :: rest).
Definition Pbval (first : bool) (v : option aexpr) (ts : list token) := forall rest, stop 1 rest -> eat PEqual rest = None -> bval_block first (ts ++ rest) = Ok (v, rest).
Definition Pitems (its : list aitem) (ts : list token) := forall rest, full NItems (ts ++ TOp PRightCurly :: rest) = Ok (its, TOp PRightCurly :: rest).
Definition Pitem (i : aitem) (ts : list token) := (forall rest, hd_in fin_ops rest -> item_block (ts ++ rest) = Ok (i, rest)) /\ exists t r, ts = t :: r /\ t <> TOp PRightCurly.
Definition Pfield (f : afield) (ts : list token) := forall rest, hd_in fin_ops rest -> full NField (ts ++ rest) = Ok (f, rest).
Definition Pcalc (c : option aexpr) (ts : list token) := forall rest, (c <> None -> stop 1 rest) -> eat PEqual rest = None -> p_calc full (ts ++ rest) = Ok (c, rest).
Definition Pcond (c : option aexpr) (ts : list token) := forall rest, eat PLeftCurly rest = None -> p_cond full (ts ++ rest) = Ok (c, rest).
Definition Pxforms (xs : list axform) (ts : list token) := forall rest, hd_in fin_ops rest -> full NXforms (ts ++ rest) = Ok (xs, rest).

Ltac flat := repeat (first [rewrite <- app_assoc | progress cbn [app]]).
(** an expression followed by punctuation that closes it *)
Ltac ex IH := rewrite IH by (cbn [stop str]; lia); cbn [bind].
Lemma full_bin l ts : full (NBin l) ts = p_bin full l ts. Proof. apply (full_eq (NBin l)). Qed.
Lemma full_binl l e ts : full (NBinL l e) ts = p_bin_loop full l e ts. Proof. apply (full_eq (NBinL l e)). Qed.
Lemma full_castl e ts : full (NCastL e) ts = p_cast_loop full e ts. Proof. apply (full_eq (NCastL e)). Qed.
Lemma full_expr ts : full NExpr ts = p_expr full ts. Proof. apply (full_eq NExpr). Qed.
Lemma full_un ts : full NUn ts = p_un full ts. Proof. apply (full_eq NUn). Qed.
Lemma full_post ts : full NPost ts = p_post full ts. Proof. apply (full_eq NPost). Qed.
Lemma full_postl e ts : full (NPostL e) ts = p_post_loop full e ts. Proof. apply (full_eq (NPostL e)). Qed.
Lemma full_prim ts : full NPrim ts = p_prim full ts. Proof. apply (full_eq NPrim). Qed.
Lemma full_args ts : full NArgs ts = p_args full ts. Proof. apply (full_eq NArgs). Qed.
Lemma full_type ts : full NType ts = p_type full ts. Proof. apply (full_eq NType). Qed.
Lemma full_typel t ts : full (NTypeL t) ts = p_type_loop full t ts. Proof. apply (full_eq (NTypeL t)). Qed.
Lemma full_field ts : full NField ts = p_field full ts. Proof. apply (full_eq NField). Qed.
Lemma full_xforms ts : full NXforms ts = p_xforms full ts. Proof. apply (full_eq NXforms). Qed.
Lemma full_items ts : full NItems ts = let! close := peek_token PRightCurly ts in if close : bool then Ok ([], ts) else
  let! (it, ts) := item_block ts in match eat PComma ts with Some ts => let! (its, ts) := full NItems ts in Ok (it :: its, ts) | None => Ok ([it], ts) end.
Proof. apply (full_eq NItems). Qed.
Lemma full_enum first ts : full (NEnum first) ts = p_enum_loop full first ts. Proof. apply (full_eq (NEnum first)). Qed.
Lemma full_bits first ts : full (NBits first) ts =
  let! (n, ts) := expect_ident ts in let! (v, ts) := bval_block first ts in
  match eat PComma ts with
  | None => Ok ([(n, v)], ts)
  | Some ts => let! close := peek_token PRightCurly ts in if close : bool then Ok ([(n, v)], ts) else let! (its, ts) := full (NBits false) ts in Ok ((n, v) :: its, ts)
  end.
Proof. apply (full_eq (NBits first)). Qed.

Lemma container_eq ts : p_container full ts = let! ts := expectk KContainer ts in let! (len, ts) := sq_block ts in let! (flags, ts) := full NFlags ts in
  let! ts := expect PLeftCurly ts in let! (items, ts) := full NItems ts in let! ts := expect PRightCurly ts in Ok (YCont len flags items, ts).
Proof. reflexivity. Qed.
Lemma loop_done l e rest : (l <= 13)%nat -> stop (l + 2) rest -> loop l e rest e rest.
Proof.
  intros L H. unfold loop. destruct (Nat.ltb_spec l 10).
  - rewrite full_binl. unfold p_bin_loop. rewrite stop_op by exact H. reflexivity.
  - destruct (Nat.eqb_spec l 10) as [->|].
    + rewrite full_castl. unfold p_cast_loop. cbn [eat_any]. rewrite !(stop_eat _ _ _ H) by (cbn; lia). reflexivity.
    + destruct (Nat.eqb_spec l 12) as [->|]; [|split; reflexivity].
      rewrite full_postl. unfold p_post_loop. cbn [eat_any]. rewrite !(stop_eat _ _ _ H) by (cbn; lia). split; [reflexivity|].
      apply skip_sq_none. apply (stop_eat _ _ _ H). cbn. lia.
Qed.
Lemma at_done l e ts rest : (l <= 13)%nat -> Pat l e ts -> stop (l + 2) rest -> full_at l (ts ++ rest) = Ok (e, rest).
Proof. intros L P H. apply P; [eapply stop_le; [|exact H]; lia|apply loop_done; assumption]. Qed.
(** an operand of level [S l] starts the loop of level [l] *)
Lemma at_up l e ts : (l < 13)%nat -> g_at (S l) e ts -> Pat (S l) e ts -> Pat l e ts.
Proof.
  intros L G P rest x r H Lp.
  assert (E : full_at (S l) (ts ++ rest) = Ok (e, rest)) by (apply at_done; [lia|exact P|eapply stop_le; [|exact H]; lia]).
  unfold full_at, loop in *. destruct (Nat.ltb_spec l 10).
  - replace (S l <=? 10)%nat with true in E by (symmetry; apply Nat.leb_le; lia). replace (l <=? 10)%nat with true by (symmetry; apply Nat.leb_le; lia).
    rewrite full_bin. unfold p_bin. replace (l <? 10)%nat with true by (symmetry; apply Nat.ltb_lt; lia). rewrite E. cbn [bind]. exact Lp.
  - destruct (Nat.eqb_spec l 10) as [->|].
    + cbn in E |- *. rewrite full_bin. unfold p_bin. cbn [Nat.ltb Nat.leb]. rewrite E. cbn [bind]. exact Lp.
    + destruct (Nat.eqb_spec l 12) as [->|].
      * cbn in E |- *. rewrite full_post. unfold p_post. rewrite E. cbn [bind]. destruct Lp as (Lp & K). rewrite Lp. cbn [bind]. rewrite K. reflexivity.
      * assert (l = 11)%nat by lia. subst l. cbn in E |- *. destruct Lp as (-> & ->). rewrite full_un. unfold p_un. rewrite (take_un_prim _ _ _ G). rewrite E. reflexivity.
Qed.
Lemma step_binary l o a b ta tb : op_prec o = l -> Pat l a ta -> Pat (S l) b tb -> Pat l (ABin o a b) (ta ++ TOp (op_sym o) :: tb).
Proof.
  intros Ol Pa Pb rest x r H Lp. flat. apply Pa; [cbn [stop]; rewrite str_op; lia|].
  assert (Lo : (l <= 10)%nat) by (subst l; destruct o; cbn; lia).
  assert (E : full_at (S l) (tb ++ rest) = Ok (b, rest)) by (apply at_done; [lia|exact Pb|eapply stop_le; [|exact H]; lia]).
  unfold loop, full_at in *. destruct (Nat.ltb_spec l 10).
  - replace (S l <=? 10)%nat with true in E by (symmetry; apply Nat.leb_le; lia). rewrite full_binl. unfold p_bin_loop. subst l. rewrite eat_any_op by assumption. rewrite E. cbn [bind]. exact Lp.
  - assert (l = 10)%nat by lia. subst l. cbn [Nat.eqb] in *. rewrite full_castl. unfold p_cast_loop. replace o with BElvis in * by (destruct o; cbn in *; lia || reflexivity). cbn in E. change (eat_any [(PCast, true); (PElvis, false)] (TOp (op_sym BElvis) :: tb ++ rest)) with (Some (false, tb ++ rest)). cbn beta iota. rewrite E. cbn [bind]. exact Lp.
Qed.

Lemma step_cast e t te tt : Pat 10 e te -> Ptype t tt -> Pat 10 (ACast e t) (te ++ TOp PCast :: tt).
Proof.
  intros Pe Pt rest x r H Lp. flat. apply Pe; [cbn; lia|]. cbn in Lp |- *. rewrite full_castl. unfold p_cast_loop.
  change (eat_any [(PCast, true); (PElvis, false)] (TOp PCast :: tt ++ rest)) with (Some (true, tt ++ rest)). cbn beta iota.
  rewrite (Pt rest t rest); [exact Lp|apply (stop_eat _ _ _ H); cbn; lia|].
  rewrite full_typel. unfold p_type_loop. rewrite (stop_eat _ _ _ H) by (cbn; lia). reflexivity.
Qed.
Lemma step_unary o e te : Pat 11 e te -> Pat 11 (AUn o e) (TOp (un_sym o) :: te).
Proof.
  intros Pe rest x r H Lp. cbn in Lp. destruct Lp as (-> & ->). specialize (Pe rest e rest H (conj eq_refl eq_refl)). cbn in Pe |- *. rewrite full_un in *. unfold p_un in *.
  cbn [take_un]. replace (un_tok (TOp (un_sym o))) with (Some o) by (destruct o; reflexivity). destruct (take_un (te ++ rest)) as [ops ts]. cbn [fst snd rev].
  destruct (full NPost ts) as [[e0 r0]| | |]; cbn [bind] in *; try discriminate Pe. apply Ok_inj in Pe. injection Pe as <- <-. rewrite fold_left_app. reflexivity.
Qed.
Lemma step_index a i ta ti : Pat 12 a ta -> Pexpr i ti -> Pat 12 (AIndex a i) (ta ++ TOp PLeftSquare :: ti ++ [TOp PRightSquare]).
Proof.
  intros Pa Pi rest x r H Lp. flat. apply Pa; [cbn; lia|]. cbn in Lp |- *. destruct Lp as (Lp & K). split; [|exact K]. rewrite full_postl. unfold p_post_loop.
  match goal with |- context [eat_any ?tab (TOp PLeftSquare :: ?r)] => change (eat_any tab (TOp PLeftSquare :: r)) with (Some (true, r)) end. cbn beta iota.
  ex Pi. rewrite expect_here. cbn [bind]. exact Lp.
Qed.
Lemma step_member e m te : Pat 12 e te -> Pat 12 (AMember e m) (te ++ [TOp PDot; TIdent m]).
Proof.
  intros Pa rest x r H Lp. flat. apply Pa; [cbn; lia|]. cbn in Lp |- *. destruct Lp as (Lp & K). split; [|exact K]. rewrite full_postl. unfold p_post_loop.
  match goal with |- context [eat_any ?tab (TOp PDot :: ?r)] => change (eat_any tab (TOp PDot :: r)) with (Some (false, r)) end. cbn beta iota.
  cbn [expect_ident bind]. exact Lp.
Qed.
(** a primary: nothing is left to do after it *)
Lemma step_prim e ts : (forall rest, stop 16 rest -> p_prim full (ts ++ rest) = Ok (e, rest)) -> Pat 13 e ts.
Proof. intros P rest x r H Lp. cbn in Lp. destruct Lp as (-> & ->). cbn. rewrite full_prim. apply P. exact H. Qed.
Lemma step_raw t ts : (forall rest, eat PLeftParen rest = None -> p_raw full (ts ++ rest) = Ok (t, rest)) -> Ptype t ts.
Proof. intros P rest x r H Lp. rewrite full_type. unfold p_type. rewrite P by exact H. exact Lp. Qed.

Lemma scalar_here s k r : scalar_word s = Some k -> parse_scalar (TKw k :: r) = Some (s, r).
Proof. intros W. apply parse_scalar_ok. eexists. split; [exact W|reflexivity]. Qed.

Lemma enum_peek f its ti r : g_enum f its ti -> peek_token PRightCurly (ti ++ r) = Ok false. Proof. destruct 1; reflexivity. Qed.
Lemma bits_peek f its ti r : g_bits f its ti -> peek_token PRightCurly (ti ++ r) = Ok false. Proof. destruct 1; reflexivity. Qed.

Theorem complete_all :
  (forall e ts, g_expr e ts -> Pexpr e ts) /\ (forall l e ts, g_at l e ts -> Pat l e ts) /\ (forall es ts, g_args es ts -> Pargs es ts) /\
  (forall es ts, g_argopt es ts -> Pargopt es ts) /\ (forall t ts, g_type t ts -> Ptype t ts) /\ (forall o ts, g_sqopt o ts -> Psqopt o ts) /\
  (forall x l ts, g_len x l ts -> Plen x l ts) /\ (forall f l ts, g_enum f l ts -> Penum f l ts) /\ (forall f v ts, g_eval f v ts -> Peval f v ts) /\
  (forall f l ts, g_bits f l ts -> Pbits f l ts) /\ (forall f v ts, g_bval f v ts -> Pbval f v ts) /\ (forall l ts, g_items l ts -> Pitems l ts) /\
  (forall i ts, g_item i ts -> Pitem i ts) /\ (forall f ts, g_field f ts -> Pfield f ts) /\ (forall c ts, g_calc c ts -> Pcalc c ts) /\
  (forall c ts, g_cond c ts -> Pcond c ts) /\ (forall l ts, g_xforms l ts -> Pxforms l ts).
Proof.
  apply c_all.
  - (* ge_at *) intros e ts G P rest H. rewrite full_expr. unfold p_expr. pose proof (at_done 0 e ts rest ltac:(lia) P ltac:(eapply stop_le; [|exact H]; lia)) as E. cbn in E. rewrite E. cbn [bind].
    rewrite (stop_eat _ _ _ H) by (cbn; lia). reflexivity.
  - (* ge_ternary *) intros c t f tc tt tf Gc Pc Gt Pt Gf Pf rest H. rewrite full_expr. unfold p_expr. flat.
    pose proof (at_done 0 c tc (TOp PQuestion :: tt ++ TOp PColon :: tf ++ rest) ltac:(lia) Pc ltac:(cbn; lia)) as E. cbn in E. rewrite E. cbn [bind]. rewrite eat_here.
    ex Pt. rewrite expect_here. cbn [bind]. pose proof (at_done 0 f tf rest ltac:(lia) Pf ltac:(eapply stop_le; [|exact H]; lia)) as E'. cbn in E'. rewrite E'. reflexivity.
  - intros l e ts L G P. exact (at_up l e ts L G P).
  - intros l o a b ta tb Ol Ga Pa Gb Pb. apply step_binary; assumption.
  - intros e t te tt Ge Pe Gt Pt. apply step_cast; assumption.
  - intros o e te Ge Pe. apply step_unary; assumption.
  - intros a i ta ti Ga Pa Gi Pi. apply step_index; assumption.
  - intros e m te Ge Pe. apply step_member; assumption.
  - intros v. apply step_prim. intros rest H. cbn [app p_prim]. rewrite (stop_scalar _ _ H) by lia. reflexivity.
  - intros v s k W. apply step_prim. intros rest H. cbn [app p_prim]. rewrite (proj2 (parse_scalar_ok _ s rest)); [reflexivity|eexists; split; [exact W|reflexivity]].
  - intros s. apply step_prim. reflexivity.
  - apply step_prim. reflexivity.
  - apply step_prim. reflexivity.
  - intros n. apply step_prim. intros rest H. cbn [app p_prim]. rewrite (stop_eat _ _ _ H) by (cbn; lia). rewrite (stop_peek _ _ _ H) by (cbn; lia). reflexivity.
  - intros n v. apply step_prim. reflexivity.
  - intros f args ts Gs Ps. apply step_prim. intros rest H. cbn [app p_prim]. cbn [bind peek_token]. unfold p_arguments. flat. cbn [eat]. cbn. unfold Pargs in Ps. rewrite Ps. reflexivity.
  - intros e ts Ge Pe. apply step_prim. intros rest H. cbn [app p_prim]. flat. ex Pe. rewrite expect_here. reflexivity.
  - (* gs_nil *) intros rest. rewrite full_args. unfold p_args. cbn [app]. rewrite eat_here. reflexivity.
  - intros e te Ge Pe rest. rewrite full_args. unfold p_args. rewrite (expr_eat _ _ _ _ Ge) by reflexivity. ex Pe. cbn [eat]. cbn. reflexivity.
  - intros e te es tes Ge Pe Gs Ps rest. rewrite full_args. unfold p_args. flat. rewrite (expr_eat _ _ _ _ Ge) by reflexivity. ex Pe. rewrite eat_here. unfold Pargs in Ps. rewrite Ps. reflexivity.
  - (* go *) intros rest H. unfold p_arguments. cbn [app]. rewrite H. reflexivity.
  - intros es ts Gs Ps rest H. unfold p_arguments. flat. rewrite eat_here. apply Ps.
  - (* gt_scalar *) intros s k W. apply step_raw. intros rest H. apply scalar_word_kw in W. cbn [app p_raw]. destruct k; try discriminate W; cbn in W |- *; injection W as <-; reflexivity.
  - apply step_raw. reflexivity.
  - apply step_raw. reflexivity.
  - apply step_raw. reflexivity.
  - intros n args ts Gs Ps. apply step_raw. intros rest H. cbn [app p_raw parse_scalar]. rewrite Ps by exact H. reflexivity.
  - intros rep k items ts W Gi Pi. apply step_raw. intros rest H. cbn [app p_raw]. unfold p_enum. rewrite expectk_here. cbn [bind].
    rewrite (scalar_here _ _ _ W). flat. rewrite expect_here. cbn [bind]. unfold Penum in Pi. rewrite Pi. cbn [bind]. rewrite expect_here. reflexivity.
  - intros rep k items ts W Gi Pi. apply step_raw. intros rest H. cbn [app p_raw]. unfold p_bits. rewrite expectk_here. cbn [bind].
    rewrite (scalar_here _ _ _ W). flat. rewrite expect_here. cbn [bind]. unfold Pbits in Pi. rewrite Pi. cbn [bind]. rewrite expect_here. reflexivity.
  - intros len flags items tl ti Gl Pl Gi Pi. apply step_raw. intros rest H. cbn [app p_raw]. rewrite container_eq. rewrite expectk_here. cbn [bind]. flat.
    assert (E : sq_block (tl ++ words_flags flags ++ TOp PLeftCurly :: ti ++ TOp PRightCurly :: rest) = Ok (len, words_flags flags ++ TOp PLeftCurly :: ti ++ TOp PRightCurly :: rest)).
    { apply Pl. apply hd_eat with [PPlus; PLeftCurly]; [destruct flags; apply hd_in_cons; cbn; auto|intros [E|[E|[]]]; discriminate E]. }
    rewrite E.
    cbn [bind]. rewrite full_flags by reflexivity. cbn [bind]. rewrite expect_here. cbn [bind]. unfold Pitems in Pi. rewrite Pi. cbn [bind]. rewrite expect_here. reflexivity.
  - (* gt_arr *) intros t tt x len tl Gt Pt Gl Pl rest y r H Lp. flat. apply Pt; [reflexivity|]. rewrite full_typel. unfold p_type_loop. rewrite eat_here. unfold Plen in Pl. rewrite Pl. cbn [bind]. rewrite expect_here. exact Lp.
  - (* gq *) intros rest H. unfold sq_block. cbn [app]. rewrite H. reflexivity.
  - intros e te Ge Pe rest H. unfold sq_block. flat. rewrite eat_here. ex Pe. rewrite expect_here. reflexivity.
  - (* gl *) intros e te Ge Pe rest. unfold p_len. rewrite (expr_eat _ _ _ _ Ge) by reflexivity. rewrite (expr_peek _ _ _ _ Ge) by reflexivity. cbn [bind]. ex Pe. reflexivity.
  - intros e te Ge Pe rest. unfold p_len. cbn [app]. rewrite eat_here. rewrite (expr_peek _ _ _ _ Ge) by reflexivity. cbn [bind]. ex Pe. reflexivity.
  - intros rest. reflexivity.
  - (* gn *) intros first n v tv Gv Pv rest. rewrite full_enum. unfold p_enum_loop. cbn [app expect_ident bind]. rewrite Pv; [|cbn; lia|reflexivity]. reflexivity.
  - intros first n v tv Gv Pv rest. rewrite full_enum. unfold p_enum_loop. flat. cbn [expect_ident bind]. rewrite Pv; [|cbn; lia|reflexivity]. cbn [bind]. rewrite eat_here, peek_here. reflexivity.
  - intros first n v tv its ti Gv Pv Gi Pi rest. rewrite full_enum. unfold p_enum_loop. flat. cbn [expect_ident bind]. rewrite Pv; [|cbn; lia|reflexivity]. cbn [bind]. rewrite eat_here.
    rewrite (enum_peek _ _ _ _ Gi). cbn [bind]. unfold Penum in Pi. rewrite Pi. reflexivity.
  - (* gv *) intros rest H N. unfold p_enum_value. cbn [app]. rewrite N. reflexivity.
  - intros first rest H N. destruct first; reflexivity.
  - intros first e te Ge Pe rest H N. unfold p_enum_value. cbn [app]. rewrite expect_here, eat_here.
    destruct first; cbn [bind]; rewrite (expr_eatk _ _ _ _ Ge) by reflexivity; rewrite Pe by exact H; reflexivity.
  - (* gb *) intros first n v tv Gv Pv rest. rewrite full_bits. cbn [app expect_ident bind]. rewrite Pv; [|cbn; lia|reflexivity]. reflexivity.
  - intros first n v tv Gv Pv rest. rewrite full_bits. flat. cbn [expect_ident bind]. rewrite Pv; [|cbn; lia|reflexivity]. cbn [bind]. rewrite eat_here, peek_here. reflexivity.
  - intros first n v tv its ti Gv Pv Gi Pi rest. rewrite full_bits. flat. cbn [expect_ident bind]. rewrite Pv; [|cbn; lia|reflexivity]. cbn [bind]. rewrite eat_here.
    rewrite (bits_peek _ _ _ _ Gi). cbn [bind]. unfold Pbits in Pi. rewrite Pi. reflexivity.
  - (* gw *) intros rest H N. unfold bval_block. cbn [app]. rewrite N. reflexivity.
  - intros first e te Ge Pe rest H N. unfold bval_block. cbn [app]. rewrite expect_here, eat_here. destruct first; cbn [bind]; rewrite Pe by exact H; reflexivity.
  - (* gi *) intros rest. rewrite full_items. cbn [app]. rewrite peek_here. reflexivity.
  - intros i ti Gi [Pi (t0 & r0 & -> & N0)] rest. rewrite full_items.
    replace (peek_token PRightCurly ((t0 :: r0) ++ TOp PRightCurly :: rest)) with (Ok (E := perr) false).
    2: { cbn [app]. unfold peek_token. destruct (eat PRightCurly _) eqn:E; [|reflexivity]. apply eat_some in E. injection E as -> _. destruct (N0 eq_refl). }
    cbn [bind]. rewrite Pi by (apply hd_in_cons; cbn; auto). reflexivity.
  - intros i ti its tis Gi [Pi (t0 & r0 & -> & N0)] Gs Ps rest. rewrite full_items. flat.
    replace (peek_token PRightCurly (t0 :: r0 ++ TOp PComma :: tis ++ TOp PRightCurly :: rest)) with (Ok (E := perr) false).
    2: { unfold peek_token. destruct (eat PRightCurly _) eqn:E; [|reflexivity]. apply eat_some in E. injection E as -> _. destruct (N0 eq_refl). }
    cbn [bind]. specialize (Pi (TOp PComma :: tis ++ TOp PRightCurly :: rest) ltac:(apply hd_in_cons; cbn; auto)). cbn [app] in Pi. rewrite Pi. cbn [bind]. rewrite eat_here. unfold Pitems in Ps. rewrite Ps. reflexivity.
  - (* gm *) intros e te Ge Pe. split; [|eexists; eexists; split; [reflexivity|discriminate]]. intros rest H. unfold item_block. cbn [app]. rewrite eat_here. cbn [expect_ident bind].
    change (eqbl (bs "pad") pad_name) with true. cbn beta iota. rewrite expect_here. cbn [bind]. rewrite Pe; [reflexivity|]. eapply hd_stop; [exact H|]. repeat constructor.
  - intros n f tf Gf Pf. split; [|eexists; eexists; split; [reflexivity|discriminate]]. intros rest H. unfold item_block. cbn [app eat]. cbn [expect_ident bind]. rewrite expect_here. cbn [bind]. rewrite Pf by exact H. reflexivity.
  - (* gf *) intros t calc flags cond xs tt tcalc tcond txs Gt Pt Gc Pc Gd Pd Gx Px W rest H. rewrite full_field. unfold p_field. flat.
    pose proof (xforms_hd _ _ _ Gx H) as Hx. pose proof (cond_hd _ _ _ Gd Hx) as Hd. pose proof (flags_hd flags _ Hd) as Hf. pose proof (calc_hd _ _ _ Gc Hf) as Hc.
    assert (NI : forall o os, existsb (fun p => if op_eq_dec o p then true else false) os = false -> ~ In o os).
    { intros o os E I. assert (existsb (fun p => if op_eq_dec o p then true else false) os = true); [|congruence]. apply existsb_exists. exists o. split; [exact I|]. destruct (op_eq_dec o o); [reflexivity|congruence]. }
    rewrite (Pt _ t (tcalc ++ words_flags flags ++ tcond ++ txs ++ rest)).
    2: { apply (hd_eat _ _ _ Hc). apply NI. reflexivity. }
    2: { rewrite full_typel. unfold p_type_loop. rewrite (hd_eat _ _ _ Hc); [reflexivity|]. apply NI. reflexivity. }
    cbn [bind]. rewrite Pc.
    2: { intros Nn. destruct W as [W|W]; [destruct (Nn W)|]. subst flags. cbn [words_flags flat_map app]. eapply hd_stop; [exact Hd|]. repeat constructor. }
    2: { apply (hd_eat _ _ _ Hf). apply NI. reflexivity. }
    cbn [bind]. rewrite full_flags by (apply (hd_eat _ _ _ Hd); apply NI; reflexivity). cbn [bind].
    rewrite Pd by (apply (hd_eat _ _ _ Hx); apply NI; reflexivity). cbn [bind]. rewrite Px by exact H. reflexivity.
  - (* gc *) intros rest H N. unfold p_calc. cbn [app]. rewrite N. reflexivity.
  - intros e te Ge Pe rest H N. unfold p_calc. cbn [app]. rewrite eat_here. rewrite Pe by (apply H; discriminate). reflexivity.
  - (* gd *) intros rest H. unfold p_cond. cbn [app]. rewrite H. reflexivity.
  - intros e te Ge Pe rest H. unfold p_cond. flat. rewrite eat_here. ex Pe. rewrite expect_here. reflexivity.
  - (* gx *) intros rest H. rewrite full_xforms. unfold p_xforms. cbn [app]. rewrite (hd_eat _ _ _ H); [reflexivity|]. cbn. intros [E|[E|[E|[]]]]; discriminate E.
  - intros n args cond xs ta tc tx Ga Pa Gc Pc Gx Px rest H. rewrite full_xforms. unfold p_xforms. flat. rewrite eat_here. cbn [expect_ident bind].
    pose proof (xforms_hd _ _ _ Gx H) as Hx. pose proof (cond_hd _ _ _ Gc Hx) as Hd.
    rewrite Pa by (apply (hd_eat _ _ _ Hd); cbn; intros E; repeat destruct E as [E|E]; try discriminate E; destruct E). cbn [bind].
    rewrite Pc by (apply (hd_eat _ _ _ Hx); cbn; intros E; repeat destruct E as [E|E]; try discriminate E; destruct E). cbn [bind]. rewrite Px by exact H. reflexivity.
Qed.

Lemma complete_expr e ts : g_expr e ts -> Pexpr e ts. Proof. apply complete_all. Qed.
Lemma complete_at l e ts : g_at l e ts -> Pat l e ts. Proof. apply complete_all. Qed.
Lemma complete_type t ts : g_type t ts -> Ptype t ts. Proof. apply complete_all. Qed.
Lemma complete_field f ts : g_field f ts -> Pfield f ts. Proof. apply complete_all. Qed.
Lemma type_done t ts rest : g_type t ts -> eat PLeftParen rest = None -> eat PLeftSquare rest = None -> full NType (ts ++ rest) = Ok (t, rest).
Proof. intros G N M. apply (complete_type _ _ G); [exact N|]. rewrite full_typel. unfold p_type_loop. rewrite M. reflexivity. Qed.
(** turns of loops that are not part of the expression grammar *)
Definition targ_block (ts : list token) : pres targ :=
  let! (n, ts) := expect_ident ts in let! ts := expect PColon ts in let! (t, ts) := full NType ts in
  let! (d, ts) := match eat PQuestion ts with Some ts => let! (e, ts) := full NExpr ts in Ok (Some e, ts) | None => Ok (None, ts) end in
  Ok ({| ta_name := n; ta_type := t; ta_default := d |}, ts).
Lemma full_targs ts : full NTArgs ts = match eat PRightParen ts with Some ts => Ok ([], ts) | None =>
  let! (a, ts) := targ_block ts in
  match eat PComma ts with None => let! ts := expect PRightParen ts in Ok ([a], ts) | Some ts => let! (l, ts) := full NTArgs ts in Ok (a :: l, ts) end end.
Proof.
  rewrite (full_eq NTArgs). cbn [body]. unfold p_targs, targ_block. destruct (eat PRightParen ts); [reflexivity|].
  destruct (expect_ident ts) as [[n ts1]| | |]; cbn [bind]; try reflexivity. destruct (expect PColon ts1) as [ts2| | |]; cbn [bind]; try reflexivity.
  destruct (full NType ts2) as [[t ts3]| | |]; cbn [bind]; try reflexivity. destruct (eat PQuestion ts3); [|reflexivity]. destruct (full NExpr l) as [[e ts4]| | |]; reflexivity.
Qed.
Lemma complete_targ a ta : g_targ a ta -> forall rest, hd_in [PComma; PRightParen] rest -> targ_block (ta ++ rest) = Ok (a, rest).
Proof.
  assert (X : forall rest, hd_in [PComma; PRightParen] rest -> stop 1 rest) by (intros rest H; eapply hd_stop; [exact H|repeat constructor]).
  assert (Y : forall rest o, hd_in [PComma; PRightParen] rest -> o <> PComma -> o <> PRightParen -> eat o rest = None) by (intros rest o H N1 N2; apply (hd_eat _ _ _ H); intros [E|[E|[]]]; congruence).
  intros G rest H. unfold targ_block. destruct G as [n t tt Gt|n t tt e te Gt Ge]; flat; cbn [expect_ident bind]; rewrite expect_here; cbn [bind].
  - rewrite (type_done _ _ _ Gt) by (apply Y; [exact H|discriminate|discriminate]). cbn [bind]. rewrite Y by (try exact H; discriminate). reflexivity.
  - rewrite (type_done _ _ _ Gt) by reflexivity. cbn [bind]. rewrite eat_here. rewrite (complete_expr _ _ Ge) by (apply X; exact H). reflexivity.
Qed.
Lemma targ_head a ta o r : g_targ a ta -> eat o (ta ++ r) = None. Proof. destruct 1; reflexivity. Qed.
Lemma complete_targs l tl : g_targs l tl -> forall rest, full NTArgs (tl ++ TOp PRightParen :: rest) = Ok (l, rest).
Proof.
  induction 1 as [|a ta G|a ta l tl G Gl IH]; intros rest; rewrite full_targs; flat.
  - rewrite eat_here. reflexivity.
  - rewrite (targ_head _ _ _ _ G). rewrite (complete_targ _ _ G) by (apply hd_in_cons; cbn; auto). cbn [bind eat]. cbn. reflexivity.
  - rewrite (targ_head _ _ _ _ G). rewrite (complete_targ _ _ G) by (apply hd_in_cons; cbn; auto). cbn [bind]. rewrite eat_here. rewrite IH. reflexivity.
Qed.
Definition import_block (ts : list token) : pres (name * option name) :=
  let! (n, ts) := expect_ident ts in
  let! (a, ts) := match eatk KAs ts with Some ts => let! (a, ts) := expect_ident ts in Ok (Some a, ts) | None => Ok (None, ts) end in
  Ok ((n, a), ts).
Lemma full_imports ts : full NImports ts = let! (x, ts) := import_block ts in
  match eat PComma ts with None => Ok ([x], ts) | Some ts => let! from := peek_kw KFrom ts in if from : bool then Ok ([x], ts) else let! (l, ts) := full NImports ts in Ok (x :: l, ts) end.
Proof.
  rewrite (full_eq NImports). cbn [body]. unfold p_imports, import_block. destruct (expect_ident ts) as [[n ts1]| | |]; cbn [bind]; try reflexivity.
  destruct (eatk KAs ts1); [|reflexivity]. destruct (expect_ident l) as [[a ts2]| | |]; reflexivity.
Qed.
Lemma complete_import x rest : eatk KAs rest = None -> import_block (words_import x ++ rest) = Ok (x, rest).
Proof. intros N. destruct x as [n [a|]]; unfold import_block; cbn [words_import app expect_ident bind]; [reflexivity|]. rewrite N. reflexivity. Qed.
Lemma complete_imports l tl : g_imports l tl -> forall rest, full NImports (tl ++ TKw KFrom :: rest) = Ok (l, TKw KFrom :: rest).
Proof.
  induction 1 as [x|x|x l tl G IH]; intros rest; rewrite full_imports; flat; (rewrite complete_import by reflexivity); cbn [bind]; [reflexivity|reflexivity|].
  rewrite eat_here. replace (peek_kw KFrom (tl ++ TKw KFrom :: rest)) with (Ok (E := perr) false) by (destruct G as [[? []]|[? []]|[? []] ]; reflexivity). cbn [bind]. rewrite IH. reflexivity.
Qed.
Lemma complete_decl d td : g_decl d td -> forall rest, full NDecl (td ++ TOp PSemicolon :: rest) = Ok (d, rest).
Proof.
  intros G rest. rewrite (full_eq NDecl). cbn [body]. unfold p_decl. destruct G as [n args targs f tf Ga Gf|items ti from Gi|n k|n t tt v tv Gt Gv]; flat.
  - unfold p_type_decl. rewrite expectk_here. cbn [bind expect_ident].
    assert (E : match eat PLeftParen (targs ++ TOp PEqual :: tf ++ TOp PSemicolon :: rest) with Some ts => full NTArgs ts | None => Ok ([], targs ++ TOp PEqual :: tf ++ TOp PSemicolon :: rest) end = Ok (args, TOp PEqual :: tf ++ TOp PSemicolon :: rest)).
    { destruct Ga as [|l tl Gl]; [reflexivity|]. flat. rewrite eat_here. apply complete_targs. exact Gl. }
    cbn [out] in E |- *. rewrite E. cbn [bind]. rewrite expect_here. cbn [bind]. rewrite (complete_field _ _ Gf) by (apply hd_in_cons; cbn; auto). cbn [bind]. rewrite expect_here. reflexivity.
  - unfold p_import_decl. rewrite expectk_here. cbn [bind]. rewrite (complete_imports _ _ Gi). cbn [bind]. rewrite expectk_here. cbn [bind expect_string]. rewrite expect_here. reflexivity.
  - destruct k; reflexivity.
  - unfold p_const_decl. rewrite expectk_here. cbn [bind expect_ident]. rewrite expect_here. cbn [bind]. rewrite (type_done _ _ _ Gt) by reflexivity. cbn [bind]. rewrite expect_here. cbn [bind].
    rewrite (complete_expr _ _ Gv) by (cbn; lia). cbn [bind]. rewrite expect_here. reflexivity.
Qed.
Lemma complete_program p tp : g_program p tp -> full NProgram tp = Ok (p, []).
Proof.
  induction 1 as [|d td p tp Gd Gp IH]; rewrite (full_eq NProgram); cbn [body]; unfold p_program; [reflexivity|].
  destruct (td ++ TOp PSemicolon :: tp) as [|t0 r0] eqn:E; [destruct td; discriminate E|]. rewrite <- E. rewrite (complete_decl _ _ Gd). cbn [bind]. rewrite IH. reflexivity.
Qed.
Lemma parse_tokens_full ts : parse_tokens ts = let! (p, _) := full NProgram ts in Ok p.
Proof.
  unfold parse_tokens. destruct (full_more (32 * S (List.length ts)) NProgram ts) as [H|H].
  - exfalso. apply (total (32 * S (List.length ts)) NProgram ts); [cbn [rank]; lia|exact H].
  - rewrite H. reflexivity.
Qed.
(** The parser accepts exactly the grammar. *)
Theorem parse_iff ts p : parse_tokens ts = Ok p <-> g_program p ts.
Proof.
  rewrite parse_tokens_full. split.
  - intros H. apply bind_ok in H as ([p' r] & E & H). apply Ok_inj in H. subst p'. unfold full in E. apply parser_sound in E. apply E.
  - intros G. rewrite (complete_program _ _ G). reflexivity.
Qed.
Lemma parse_expression_full ts : parse_expression ts = full NExpr ts.
Proof.
  unfold parse_expression. destruct (full_more (32 * S (List.length ts)) NExpr ts) as [H|H]; [|exact H].
  exfalso. apply (total (32 * S (List.length ts)) NExpr ts); [cbn [rank]; lia|exact H].
Qed.
