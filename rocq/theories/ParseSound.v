(** What the parser accepts is in the grammar. *)
From Verif Require Import Base Scalar Tokens Ast Parse Grammar ParseFacts TokFacts.
Open Scope list_scope.

(** the head of [r] is no operator of level [l] or tighter *)
Definition nop (l : nat) (r : list token) : Prop := forall l', (l <= l')%nat -> eat_any (level_ops l') r = None.
Lemma level_prec l s o : In (s, o) (level_ops l) -> op_prec o = l /\ op_sym o = s /\ (l < 10)%nat.
Proof.
  do 10 (destruct l as [|l]; [cbn; intros H; repeat (destruct H as [H|H]; [injection H as <- <-; repeat split; lia|]); destruct H|]).
  cbn. destruct 1.
Qed.

Definition sound (s : sym) : out s -> list token -> list token -> Prop :=
  match s return out s -> list token -> list token -> Prop with
  | NExpr => fun x ts r => exists ph, ts = ph ++ r /\ g_expr x ph /\ nop 0 r
  | NBin l => fun x ts r => (l <= 10)%nat -> exists ph, ts = ph ++ r /\ g_at l x ph /\ nop l r
  | NBinL l e => fun x ts r => forall te, (l < 10)%nat -> g_at l e te -> nop (S l) ts -> exists ph, ts = ph ++ r /\ g_at l x (te ++ ph) /\ nop l r
  | NCastL e => fun x ts r => forall te, g_at 10 e te -> exists ph, ts = ph ++ r /\ g_at 10 x (te ++ ph)
  | NUn => fun x ts r => exists ph, ts = ph ++ r /\ g_at 11 x ph
  | NPost => fun x ts r => exists ph, ts = ph ++ r /\ g_at 12 x ph
  | NPostL e => fun x ts r => forall te, g_at 12 e te -> exists ph, ts = ph ++ r /\ g_at 12 x (te ++ ph) /\ eat PLeftSquare r = None
  | NPrim => fun x ts r => exists ph, ts = ph ++ r /\ g_at 13 x ph
  | NArgs => fun x ts r => exists ph, ts = ph ++ TOp PRightParen :: r /\ g_args x ph
  | NFlags => fun x ts r => ts = words_flags x ++ r /\ (eat PPlus ts = None -> x = [])
  | NType => fun x ts r => exists ph, ts = ph ++ r /\ g_type x ph
  | NTypeL t => fun x ts r => forall tt, g_type t tt -> exists ph, ts = ph ++ r /\ g_type x (tt ++ ph)
  | NEnum first => fun x ts r => exists ph, ts = ph ++ r /\ g_enum first x ph
  | NBits first => fun x ts r => exists ph, ts = ph ++ r /\ g_bits first x ph
  | NItems => fun x ts r => exists ph, ts = ph ++ r /\ g_items x ph
  | NField => fun x ts r => exists ph, ts = ph ++ r /\ g_field x ph
  | NXforms => fun x ts r => exists ph, ts = ph ++ r /\ g_xforms x ph
  | NTArgs => fun x ts r => exists ph, ts = ph ++ TOp PRightParen :: r /\ g_targs x ph
  | NImports => fun x ts r => exists ph, ts = ph ++ r /\ g_imports x ph
  | NDecl => fun x ts r => exists td, ts = td ++ TOp PSemicolon :: r /\ g_decl x td
  | NProgram => fun x ts r => r = [] /\ g_program x ts
  end.
Definition sounds (rec : recs) := forall s ts x r, rec s ts = Ok (x, r) -> sound s x ts r.

Ltac toks :=
  repeat match goal with
  | H : eat _ _ = Some _ |- _ => apply eat_some in H; subst
  | H : eatk _ _ = Some _ |- _ => apply eatk_some in H; subst
  | H : expect _ _ = Ok _ |- _ => apply expect_ok in H; subst
  | H : expectk _ _ = Ok _ |- _ => apply expectk_ok in H; subst
  | H : expect_ident _ = Ok _ |- _ => apply ident_ok in H; subst
  | H : expect_string _ = Ok _ |- _ => apply string_ok in H; subst
  | H : parse_scalar _ = Some _ |- _ => apply parse_scalar_ok in H as (? & ? & ?); subst
  end.
Ltac useS S :=
  repeat match goal with
  | H : ?rec ?s ?ts = Ok (?x, ?r) |- _ =>
      match type of S with sounds rec => let H' := fresh "D" in pose proof (S s ts x r H) as H'; cbn [sound out] in H'; clear H end
  end.
Ltac opened := repeat match goal with H : exists _, _ |- _ => destruct H as (? & ?) | H : _ /\ _ |- _ => destruct H end; toks; subst.
Ltac same := repeat (first [rewrite <- app_assoc | progress cbn [app]]); reflexivity.

Lemma sound_arguments rec : sounds rec -> forall ts x r, p_arguments rec ts = Ok (x, r) -> exists ph, ts = ph ++ r /\ g_argopt x ph.
Proof.
  intros S0 ts x r H. unfold p_arguments in H. run; useS S0; opened.
  - eexists (TOp PLeftParen :: _ ++ [TOp PRightParen]). split; [|apply go_some; eassumption]. same.
  - exists []. split; [reflexivity|constructor].
Qed.
Lemma sound_cond rec : sounds rec -> forall ts x r, p_cond rec ts = Ok (x, r) -> exists ph, ts = ph ++ r /\ g_cond x ph.
Proof.
  intros S0 ts x r H. unfold p_cond in H. run; useS S0; opened.
  - eexists (TOp PLeftCurly :: _ ++ [TOp PRightCurly]). split; [|apply gd_some; eassumption]. same.
  - exists []. split; [reflexivity|constructor].
Qed.
Lemma sound_calc rec : sounds rec -> forall ts x r, p_calc rec ts = Ok (x, r) -> exists ph, ts = ph ++ r /\ g_calc x ph /\ (x <> None -> eat PPlus r = None).
Proof.
  intros S0 ts x r H. unfold p_calc in H. run; useS S0; opened.
  - eexists (TOp PEqual :: _). split; [|split; [apply gc_some; eassumption|]]; [same|]. intros _.
    match goal with N : nop 0 _ |- _ => specialize (N 8%nat ltac:(lia)); cbn [level_ops eat_any] in N end. destruct (eat PPlus r); [discriminate|reflexivity].
  - exists []. split; [reflexivity|split; [constructor|congruence]].
Qed.
Lemma sound_len rec : sounds rec -> forall ts x l r, p_len rec ts = Ok ((x, l), r) -> exists ph, ts = ph ++ r /\ g_len x l ph.
Proof.
  intros S0 ts x l r H. unfold p_len in H. run; useS S0; opened; try discriminate.
  all: try (exists [TOp PDotDot]; split; [reflexivity|apply gl_any]).
  - eexists (TOp PDotDot :: _). split; [|apply gl_upto; eassumption]. same.
  - eexists. split; [reflexivity|apply gl_fixed; eassumption].
Qed.
Lemma sound_eval rec first : sounds rec -> forall ts x r, p_enum_value rec first ts = Ok (x, r) -> exists ph, ts = ph ++ r /\ g_eval first x ph.
Proof.
  intros S0 ts x r H. unfold p_enum_value in H. run; useS S0; opened; try discriminate.
  all: try (exists [TOp PEqual; TKw KDefault]; split; [reflexivity|apply gv_default]).
  all: try (eexists (TOp PEqual :: _); split; [|apply gv_expr; eassumption]; same).
  exists []. split; [reflexivity|apply gv_none].
Qed.
Lemma words_plus fs r : eat PPlus r = None -> eat PPlus (words_flags fs ++ r) = None -> fs = [].
Proof. intros _. destruct fs; [reflexivity|]. cbn. discriminate. Qed.
Lemma fold_un ops : forall e ts, g_at 11 e ts -> g_at 11 (fold_left (fun e o => AUn o e) (rev ops) e) (map (fun o => TOp (un_sym o)) ops ++ ts).
Proof.
  induction ops as [|o ops IH]; intros e ts G; cbn [rev map app fold_left]; [exact G|].
  rewrite fold_left_app. cbn [fold_left]. apply ga_unary. apply IH. exact G.
Qed.
Lemma take_un_spec ts : ts = map (fun o => TOp (un_sym o)) (fst (take_un ts)) ++ snd (take_un ts).
Proof.
  induction ts as [|t ts IH]; [reflexivity|]. cbn [take_un]. destruct (un_tok t) as [o|] eqn:E; cbn [fst snd map app]; [|reflexivity].
  rewrite <- IH. destruct t as [| | | | |p|]; try discriminate E. destruct p; try discriminate E; injection E as <-; reflexivity.
Qed.
Lemma skip_sq_none r : eat PLeftSquare r = None -> skip_sq r = r.
Proof. destruct r as [|[| | | | |o|] r]; try reflexivity. destruct o; try reflexivity. cbn. discriminate. Qed.
Lemma nop_le l l' r : (l <= l')%nat -> nop l r -> nop l' r. Proof. intros L H k K. apply H. lia. Qed.

Lemma up l e ts : (l < 13)%nat -> g_at (S l) e ts -> g_at l e ts. Proof. apply ga_tighter. Qed.

Lemma body_sound rec : sounds rec -> sounds (body rec).
Proof.
  intros S0 s ts x r H. destruct s; cbn [body out sound] in *.
  - (* NExpr *) unfold p_expr in H. run; useS S0; repeat match goal with D : (0 <= 10)%nat -> _ |- _ => specialize (D ltac:(lia)) end; opened.
    + eexists. split; [|split; [apply ge_ternary; eassumption|assumption]]. same.
    + eexists. split; [|split; [apply ge_at; eassumption|assumption]]. same.
  - (* NBin *) intros L. unfold p_bin in H. destruct (Nat.ltb_spec l 10) as [Ll|Ll]; run; useS S0.
    + destruct (D0 ltac:(lia)) as (p1 & -> & G1 & N1). apply up in G1; [|lia]. destruct (D _ Ll G1 N1) as (p2 & -> & G2 & N2).
      exists (p1 ++ p2). split; [same|split; assumption].
    + assert (l = 10)%nat by lia. subst. destruct D0 as (p1 & -> & G1). apply up in G1; [|lia]. destruct (D _ G1) as (p2 & -> & G2).
      exists (p1 ++ p2). split; [same|split; [assumption|]].
      intros k K. destruct k as [|[|[|[|[|[|[|[|[|[|k]]]]]]]]]]; try lia. reflexivity.
  - (* NBinL *) intros te L G N. unfold p_bin_loop in H. run; useS S0.
    + apply eat_any_some in Heqo as (s & I & ->). apply level_prec in I as (P & <- & _). destruct (D0 ltac:(lia)) as (p1 & -> & G1 & N1).
      destruct (D _ L (ga_binary _ _ _ _ _ _ P G G1) N1) as (p2 & -> & G2 & N2). exists (TOp (op_sym b) :: p1 ++ p2). split; [same|]. split; [|assumption].
      rewrite <- app_assoc in G2. exact G2.
    + exists []. split; [reflexivity|]. rewrite app_nil_r. split; [exact G|]. intros k K. destruct (Nat.eq_dec k l) as [->|]; [assumption|apply N; lia].
  - (* NCastL *) intros te G. unfold p_cast_loop in H. run; useS S0.
    + apply eat_any_some in Heqo as (s & I & ->). destruct I as [I|[I|[]]]; try discriminate I. injection I as <-. destruct D0 as (p1 & -> & G1).
      destruct (D _ (ga_cast _ _ _ _ G G1)) as (p2 & -> & G2). exists (TOp PCast :: p1 ++ p2). split; [same|]. rewrite <- app_assoc in G2. exact G2.
    + apply eat_any_some in Heqo as (s & I & ->). destruct I as [I|[I|[]]]; try discriminate I. injection I as <-. destruct D0 as (p1 & -> & G1).
      destruct (D _ (ga_binary 10 BElvis _ _ _ _ eq_refl G G1)) as (p2 & -> & G2). exists (TOp PElvis :: p1 ++ p2). split; [same|]. rewrite <- app_assoc in G2. exact G2.
    + exists []. split; [reflexivity|]. rewrite app_nil_r. exact G.
  - (* NUn *) unfold p_un in H. pose proof (take_un_spec ts) as E. destruct (take_un ts) as [ops ts']. cbn [fst snd] in E. run; useS S0. destruct D as (p1 & -> & G1).
    eexists (_ ++ _). split; [|apply fold_un; apply (up 11); [lia|eassumption]]. same.
  - (* NPost *) unfold p_post in H. run; useS S0. destruct D0 as (p1 & -> & G1). apply up in G1; [|lia]. destruct (D _ G1) as (p2 & -> & G2 & N2).
    exists (p1 ++ p2). split; [|assumption]. rewrite skip_sq_none by assumption. same.
  - (* NPostL *) intros te G. unfold p_post_loop in H. run; useS S0.
    + apply eat_any_some in Heqo as (s & I & ->). destruct I as [I|[I|[]]]; try discriminate I. injection I as <-. destruct D0 as (p1 & -> & G1 & _). toks.
      destruct (D _ (ga_index _ _ _ _ G G1)) as (p2 & -> & G2 & N2). exists (TOp PLeftSquare :: p1 ++ TOp PRightSquare :: p2). split; [same|]. split; [|assumption].
      rewrite <- app_assoc in G2. cbn [app] in G2. rewrite <- app_assoc in G2. exact G2.
    + apply eat_any_some in Heqo as (s & I & ->). destruct I as [I|[I|[]]]; try discriminate I. injection I as <-. toks.
      destruct (D _ (ga_member _ n _ G)) as (p2 & -> & G2 & N2). exists (TOp PDot :: TIdent n :: p2). split; [same|]. split; [|assumption].
      rewrite <- app_assoc in G2. exact G2.
    + exists []. split; [reflexivity|]. rewrite app_nil_r. split; [exact G|].
      cbn [eat_any] in Heqo. destruct (eat PLeftSquare r); [discriminate|reflexivity].
  - (* NPrim *) unfold p_prim, p_arguments in H. run.
    all: useS S0; opened.
    all: try (eexists [_]; split; [reflexivity|constructor]; fail).
    all: first
    [ eexists [_; _]; split; [reflexivity|eapply ga_int_typed; eassumption]
    | eexists [_; _; _]; split; [reflexivity|apply ga_enum]
    | eexists (TIdent _ :: TOp PLeftParen :: _ ++ [TOp PRightParen]); split; [|apply ga_call; eassumption]; same
    | match goal with H : peek_token _ _ = Ok true |- _ => apply peek_ok in H as (? & ->) end; rewrite eat_here in *; discriminate
    | eexists (TOp PLeftParen :: _ ++ [TOp PRightParen]); split; [|apply ga_paren; eassumption]; same ].
  - (* NArgs *) unfold p_args in H. run; useS S0; opened.
    + exists []. split; [reflexivity|constructor].
    + eexists (_ ++ TOp PComma :: _). split; [|apply gs_cons; eassumption]; same.
    + eexists. split; [reflexivity|apply gs_one; assumption].
  - (* NFlags *) unfold p_flags in H. run; useS S0; opened.
    + split; [reflexivity|]. cbn. discriminate.
    + split; reflexivity.
  - (* NType *) unfold p_type in H. run. useS S0.
    assert (Raw : exists ph, ts = ph ++ l /\ g_type a ph).
    { clear D. unfold p_raw, p_container, p_enum, p_bits in H. run;
      try match goal with H : p_arguments _ _ = Ok _ |- _ => apply (sound_arguments _ S0) in H end; useS S0; opened.
      all: repeat match goal with H : (_ :: _)%list = (_ :: _)%list |- _ => first [discriminate H | injection H; clear H; intros; subst] end.
      all: try (eexists [_]; split; [reflexivity|constructor; fail]).
      all: try (eexists [_]; split; [reflexivity|constructor; eassumption]).
      all: try (eexists (TIdent _ :: _); split; [|apply gt_ref; eassumption]; same).
      all: try (eexists (TKw KEnum :: TKw _ :: TOp PLeftCurly :: _ ++ [TOp PRightCurly]); split; [|eapply gt_enum; eassumption]; same).
      all: try (eexists (TKw KBitfield :: TKw _ :: TOp PLeftCurly :: _ ++ [TOp PRightCurly]); split; [|eapply gt_bits; eassumption]; same).
      all: try (eexists (TKw KContainer :: TOp PLeftSquare :: (_ ++ [TOp PRightSquare]) ++ words_flags _ ++ TOp PLeftCurly :: _ ++ [TOp PRightCurly]); split;
        [|eapply (gt_cont (Some _) _ _ (TOp PLeftSquare :: _ ++ [TOp PRightSquare])); [apply gq_some; eassumption|eassumption]]; same).
      all: try (eexists (TKw KContainer :: words_flags _ ++ TOp PLeftCurly :: _ ++ [TOp PRightCurly]); split; [|eapply (gt_cont None _ _ []); [apply gq_none|eassumption]]; same). }
    destruct Raw as (p1 & -> & G1). destruct (D _ G1) as (p2 & -> & G2). exists (p1 ++ p2). split; [same|exact G2].
  - (* NTypeL *) intros tt G. unfold p_type_loop in H. run.
    + match goal with H : p_len _ _ = Ok _ |- _ => apply (sound_len _ S0) in H as (p1 & -> & G1) end. useS S0. toks.
      destruct (D _ (gt_arr _ _ _ _ _ G G1)) as (p2 & -> & G2). exists (TOp PLeftSquare :: p1 ++ TOp PRightSquare :: p2). split; [same|].
      rewrite <- app_assoc in G2. cbn [app] in G2. rewrite <- app_assoc in G2. exact G2.
    + exists []. split; [reflexivity|]. rewrite app_nil_r. exact G.
  - (* NEnum *) unfold p_enum_loop in H. run; match goal with H : p_enum_value _ _ _ = Ok _ |- _ => apply (sound_eval _ _ S0) in H as (p1 & -> & G1) end; useS S0; opened.
    + eexists (TIdent _ :: _ ++ [TOp PComma]). split; [|apply gn_comma; eassumption]; same.
    + eexists (TIdent _ :: _ ++ TOp PComma :: _). split; [|apply gn_cons; eassumption]; same.
    + eexists (TIdent _ :: _). split; [|apply gn_one; eassumption]; same.
  - (* NBits *) unfold p_bits_loop in H.
    apply bind_ok in H as ((n & ts1) & E1 & H). apply bind_ok in H as ((v & ts2) & E2 & H).
    assert (V : exists ph, ts1 = ph ++ ts2 /\ g_bval first v ph).
    { clear H. run; useS S0; opened; try (eexists (TOp PEqual :: _); split; [|apply gw_some; eassumption]; same). exists []. split; [reflexivity|apply gw_none]. }
    destruct V as (p1 & -> & G1). clear E2. run; useS S0; opened.
    + eexists (TIdent _ :: _ ++ [TOp PComma]). split; [|apply gb_comma; eassumption]; same.
    + eexists (TIdent _ :: _ ++ TOp PComma :: _). split; [|apply gb_cons; eassumption]; same.
    + eexists (TIdent _ :: _). split; [|apply gb_one; eassumption]; same.
  - (* NItems *) unfold p_items in H. apply bind_ok in H as (close & E0 & H). destruct close; [run; exists []; split; [reflexivity|constructor]|].
    apply bind_ok in H as ((it & ts1) & E1 & H).
    assert (V : exists ph, ts = ph ++ ts1 /\ g_item it ph).
    { clear H. run; useS S0; opened.
      - match goal with H : eqbl _ _ = true |- _ => apply eqbl_eq in H; subst end. eexists (TOp PDot :: TIdent _ :: TOp PColon :: _). split; [|apply gm_pad; eassumption]; same.
      - eexists (TIdent _ :: TOp PColon :: _). split; [|apply gm_field; eassumption]; same. }
    destruct V as (p1 & -> & G1). clear E1. run; useS S0; opened.
    + eexists (_ ++ TOp PComma :: _). split; [|apply gi_cons; eassumption]; same.
    + eexists. split; [reflexivity|apply gi_one; eassumption].
  - (* NField *) unfold p_field in H. run.
    match goal with H : p_calc _ _ = Ok _ |- _ => apply (sound_calc _ S0) in H as (p1 & -> & G1 & N1) end.
    match goal with H : p_cond _ _ = Ok _ |- _ => apply (sound_cond _ S0) in H as (p2 & -> & G2) end. useS S0. opened.
    eexists. split; [|apply gf_field; try eassumption]; [same|].
    match goal with o : option aexpr, N : ?o0 <> None -> _ |- ?o0 = None \/ _ => destruct o0; [right; match goal with K : eat PPlus _ = None -> _ = [] |- _ => apply K, N; discriminate end|left; reflexivity] end.
  - (* NXforms *) unfold p_xforms in H. run.
    + match goal with H : p_arguments _ _ = Ok _ |- _ => apply (sound_arguments _ S0) in H as (p1 & -> & G1) end.
      match goal with H : p_cond _ _ = Ok _ |- _ => apply (sound_cond _ S0) in H as (p2 & -> & G2) end. useS S0. opened.
      eexists (TOp PArrow :: TIdent _ :: _ ++ _ ++ _). split; [|apply gx_cons; eassumption]; same.
    + exists []. split; [reflexivity|constructor].
  - (* NTArgs *) unfold p_targs in H. destruct (eat PRightParen ts) eqn:Ec; [run; toks; exists []; split; [reflexivity|constructor]|]. clear Ec.
    apply bind_ok in H as ((n & ts1) & E1 & H). apply bind_ok in H as (ts2 & E2 & H). apply bind_ok in H as ((t & ts3) & E3 & H). apply bind_ok in H as ((d & ts4) & E4 & H).
    assert (V : exists ph, ts = ph ++ ts4 /\ g_targ {| ta_name := n; ta_type := t; ta_default := d |} ph).
    { clear H. run; useS S0; opened.
      - eexists (TIdent _ :: TOp PColon :: _ ++ TOp PQuestion :: _). split; [|apply gta_default; eassumption]; same.
      - eexists (TIdent _ :: TOp PColon :: _). split; [|apply gta_plain; eassumption]; same. }
    destruct V as (p1 & -> & G1). clear E1 E2 E3 E4. run; useS S0; opened.
    + eexists (_ ++ TOp PComma :: _). split; [|apply gts_cons; eassumption]; same.
    + eexists. split; [reflexivity|apply gts_one; eassumption].
  - (* NImports *) unfold p_imports in H.
    apply bind_ok in H as ((n & ts1) & E1 & H). apply bind_ok in H as ((a & ts2) & E2 & H).
    assert (V : ts = words_import (n, a) ++ ts2) by (clear H; run; toks; reflexivity). clear E1 E2. subst ts. run; useS S0; opened.
    + match goal with H : peek_kw _ _ = Ok true |- _ => apply peekk_ok in H as (? & ->) end. eexists (_ ++ [TOp PComma]). split; [|apply gim_comma]; same.
    + eexists (_ ++ TOp PComma :: _). split; [|apply gim_cons; eassumption]; same.
    + eexists. split; [reflexivity|apply gim_one].
  - (* NDecl *) unfold p_decl in H. apply bind_ok in H as ((d & ts1) & E1 & H). apply bind_ok in H as (ts2 & E2 & H). apply Ok_inj in H. injection H as -> ->. toks.
    unfold p_type_decl, p_import_decl, p_ffi_decl, p_const_decl in E1. run; useS S0; opened.
    all: repeat match goal with H : (_ :: _)%list = (_ :: _)%list |- _ => first [discriminate H | injection H; clear H; intros; subst] end.
    all: try (eexists [_; _; _; _]; split; [|first [apply (gd_ffi _ FTransform)|apply (gd_ffi _ FType)|apply (gd_ffi _ FFunction)]]; reflexivity).
    all: try (eexists (TKw KConst :: TIdent _ :: TOp PColon :: _ ++ TOp PEqual :: _); split; [|apply gd_const; eassumption]; same).
    all: try (eexists (TKw KImport :: _ ++ [TKw KFrom; TStr _]); split; [|apply gd_import; eassumption]; same).
    all: try (eexists (TKw KType :: TIdent _ :: TOp PEqual :: _); split; [|eapply (gd_type _ [] []); [apply gto_none|eassumption]]; same).
    all: try (eexists (TKw KType :: TIdent _ :: (TOp PLeftParen :: _ ++ [TOp PRightParen]) ++ TOp PEqual :: _); split; [|eapply gd_type; [apply gto_some; eassumption|eassumption]]; same).
  - (* NProgram *) unfold p_program in H. run; useS S0; opened.
    + split; [reflexivity|constructor].
    + split; [reflexivity|]. match goal with H : _ :: _ = _ |- _ => rewrite H end. apply gp_cons; assumption.
Qed.
Lemma parser_sound n : sounds (parser n).
Proof. induction n as [|n IH]; [intros s ts x r H; discriminate H|]. exact (body_sound _ IH). Qed.
