(** Fuel, consumption and termination of the parser. *)
From Verif Require Import Base Scalar Tokens Ast Parse Grammar.
Open Scope list_scope.

(** ** Token primitives *)
Lemma eat_some o ts r : eat o ts = Some r <-> ts = TOp o :: r.
Proof.
  unfold eat. split.
  - destruct ts as [|[] ?]; try discriminate. destruct (op_eq_dec o o0); [|discriminate]. intros H. injection H as <-. subst. reflexivity.
  - intros ->. destruct (op_eq_dec o o); [reflexivity|congruence].
Qed.
Lemma eat_here o r : eat o (TOp o :: r) = Some r. Proof. apply eat_some. reflexivity. Qed.
Lemma eatk_some k ts r : eatk k ts = Some r <-> ts = TKw k :: r.
Proof.
  unfold eatk. split.
  - destruct ts as [|[] ?]; try discriminate. destruct (kw_eq_dec k k0); [|discriminate]. intros H. injection H as <-. subst. reflexivity.
  - intros ->. destruct (kw_eq_dec k k); [reflexivity|congruence].
Qed.
Lemma eatk_here k r : eatk k (TKw k :: r) = Some r. Proof. apply eatk_some. reflexivity. Qed.
Lemma expect_ok o ts r : expect o ts = Ok r <-> ts = TOp o :: r.
Proof.
  unfold expect. rewrite <- eat_some. destruct (eat o ts) as [r'|] eqn:E; [split; intros H; [apply Ok_inj in H; subst; reflexivity|injection H as <-; reflexivity]|].
  split; [destruct ts; discriminate|discriminate].
Qed.
Lemma expect_here o r : expect o (TOp o :: r) = Ok r. Proof. apply expect_ok. reflexivity. Qed.
Lemma expectk_ok k ts r : expectk k ts = Ok r <-> ts = TKw k :: r.
Proof.
  unfold expectk. rewrite <- eatk_some. destruct (eatk k ts) as [r'|] eqn:E; [split; intros H; [apply Ok_inj in H; subst; reflexivity|injection H as <-; reflexivity]|].
  split; [destruct ts; discriminate|discriminate].
Qed.
Lemma expectk_here k r : expectk k (TKw k :: r) = Ok r. Proof. apply expectk_ok. reflexivity. Qed.
Lemma ident_ok ts n r : expect_ident ts = Ok (n, r) <-> ts = TIdent n :: r.
Proof. split; [|intros ->; reflexivity]. destruct ts as [|[] ?]; try discriminate. cbn. intros H. injection H as <- <-. reflexivity. Qed.
Lemma string_ok ts n r : expect_string ts = Ok (n, r) <-> ts = TStr n :: r.
Proof. split; [|intros ->; reflexivity]. destruct ts as [|[] ?]; try discriminate. cbn. intros H. injection H as <- <-. reflexivity. Qed.
Lemma eat_any_some {A} tab ts (a : A) r : eat_any tab ts = Some (a, r) -> exists o, In (o, a) tab /\ ts = TOp o :: r.
Proof.
  induction tab as [|[o b] tab IH]; cbn [eat_any]; [discriminate|].
  destruct (eat o ts) eqn:E; intros H.
  - injection H as <- <-. apply eat_some in E. exists o. split; [left; reflexivity|exact E].
  - apply IH in H as (o' & I & E'). exists o'. split; [right; exact I|exact E'].
Qed.
Lemma peek_ok o ts b : peek_token o ts = Ok b -> if b then exists r, ts = TOp o :: r else forall r, ts <> TOp o :: r.
Proof.
  unfold peek_token. destruct ts as [|t r]; [discriminate|]. intros H. apply Ok_inj in H. subst b.
  destruct (eat o (t :: r)) eqn:E; [apply eat_some in E; eexists; exact E|]. intros r' H. rewrite (proj2 (eat_some _ _ _) H) in E. discriminate E.
Qed.
Lemma peekk_ok k ts b : peek_kw k ts = Ok b -> if b then exists r, ts = TKw k :: r else forall r, ts <> TKw k :: r.
Proof.
  unfold peek_kw. destruct ts as [|t r]; [discriminate|]. intros H. apply Ok_inj in H. subst b.
  destruct (eatk k (t :: r)) eqn:E; [apply eatk_some in E; eexists; exact E|]. intros r' H. rewrite (proj2 (eatk_some _ _ _) H) in E. discriminate E.
Qed.
Lemma scalar_word_kw s k : scalar_word s = Some k <-> scalar_kw k = Some s.
Proof.
  split.
  - destruct s as [[] []]; cbn; intros H; try discriminate; injection H as <-; reflexivity.
  - destruct k; cbn; intros H; try discriminate; injection H as <-; reflexivity.
Qed.
Lemma parse_scalar_ok ts s r : parse_scalar ts = Some (s, r) <-> exists k, scalar_word s = Some k /\ ts = TKw k :: r.
Proof.
  split.
  - destruct ts as [|[] ?]; try discriminate. cbn [parse_scalar]. destruct (scalar_kw k) eqn:E; [|discriminate]. intros H. injection H as <- <-. exists k. split; [apply scalar_word_kw; exact E|reflexivity].
  - intros (k & W & ->). apply scalar_word_kw in W. cbn [parse_scalar]. rewrite W. reflexivity.
Qed.
Lemma bind_ok {E A B} (r : res E A) (f : A -> res E B) b : bind r f = Ok b -> exists a, r = Ok a /\ f a = Ok b.
Proof. destruct r; cbn; try discriminate. eauto. Qed.

(** ** More fuel does not change an answer *)
Definition fle {A} (a b : res perr A) : Prop := a = Hang \/ a = b.
Lemma fle_refl {A} (a : res perr A) : fle a a. Proof. right. reflexivity. Qed.
Lemma fle_bind {A B} (a b : res perr A) (f g : A -> res perr B) : fle a b -> (forall x, fle (f x) (g x)) -> fle (bind a f) (bind b g).
Proof. intros [->| ->] F; [left; reflexivity|]. destruct b; cbn; try (right; reflexivity). apply F. Qed.
Definition rle (r1 r2 : recs) := forall s ts, fle (r1 s ts) (r2 s ts).
Ltac mono H :=
  repeat (cbn beta iota; match goal with
  | |- fle ?x ?x => apply fle_refl
  | |- fle (bind _ _) (bind _ _) => apply fle_bind; [|intros ?]
  | |- fle (?r1 ?s ?ts) _ => exact (H s ts)
  | |- fle (if ?b then _ else _) _ => destruct b
  | |- fle (let (_, _) := ?b in _) _ => destruct b
  | |- fle (match ?b with _ => _ end) _ => destruct b
  end).
Lemma body_mono r1 r2 : rle r1 r2 -> forall s ts, fle (body r1 s ts) (body r2 s ts).
Proof.
  intros H s ts. destruct s; cbn [body];
  unfold p_expr, p_bin, p_bin_loop, p_cast_loop, p_un, p_post, p_post_loop, p_prim, p_args, p_flags, p_type, p_type_loop, p_raw, p_container, p_enum, p_bits, p_len,
    p_enum_loop, p_enum_value, p_bits_loop, p_items, p_field, p_calc, p_xforms, p_cond, p_targs, p_imports, p_decl, p_type_decl, p_import_decl, p_ffi_decl, p_const_decl, p_program, p_arguments;
  mono H.
Qed.

Lemma parser_mono n : forall s ts, fle (parser n s ts) (parser (S n) s ts).
Proof. induction n as [|n IH]; intros s ts; [left; reflexivity|]. change (parser (S n) s ts) with (body (parser n) s ts). change (parser (S (S n)) s ts) with (body (parser (S n)) s ts). apply body_mono. exact IH. Qed.
Lemma parser_more n m s ts : (n <= m)%nat -> fle (parser n s ts) (parser m s ts).
Proof. induction 1 as [|m _ IH]; [apply fle_refl|]. destruct IH as [E|E]; [left; exact E|]. rewrite E. apply parser_mono. Qed.
Lemma parser_stable n m s ts x : (n <= m)%nat -> parser n s ts = Ok x -> parser m s ts = Ok x.
Proof. intros L E. destruct (parser_more n m s ts L) as [H|H]; rewrite H in E; [discriminate E|exact E]. Qed.

(** ** Consumption: every function leaves a suffix no longer than its input, most a shorter one *)
Definition strict (s : sym) : nat :=
  match s with NBinL _ _ | NCastL _ | NPostL _ | NFlags | NTypeL _ | NItems | NXforms | NProgram => 0 | _ => 1 end%nat.
Definition consumes (rec : recs) : Prop := forall s ts x r, rec s ts = Ok (x, r) -> (List.length r + strict s <= List.length ts)%nat.
Lemma eat_len o ts r : eat o ts = Some r -> List.length ts = S (List.length r). Proof. intros H. apply eat_some in H. subst. reflexivity. Qed.
Lemma eatk_len o ts r : eatk o ts = Some r -> List.length ts = S (List.length r). Proof. intros H. apply eatk_some in H. subst. reflexivity. Qed.
Lemma expect_len o ts r : expect o ts = Ok r -> List.length ts = S (List.length r). Proof. intros H. apply expect_ok in H. subst. reflexivity. Qed.
Lemma expectk_len o ts r : expectk o ts = Ok r -> List.length ts = S (List.length r). Proof. intros H. apply expectk_ok in H. subst. reflexivity. Qed.
Lemma ident_len ts n r : expect_ident ts = Ok (n, r) -> List.length ts = S (List.length r). Proof. intros H. apply ident_ok in H. subst. reflexivity. Qed.
Lemma string_len ts n r : expect_string ts = Ok (n, r) -> List.length ts = S (List.length r). Proof. intros H. apply string_ok in H. subst. reflexivity. Qed.
Lemma eat_any_len {A} tab ts (a : A) r : eat_any tab ts = Some (a, r) -> List.length ts = S (List.length r).
Proof. intros H. apply eat_any_some in H as (o & _ & ->). reflexivity. Qed.
Lemma scalar_len ts s r : parse_scalar ts = Some (s, r) -> List.length ts = S (List.length r).
Proof. intros H. apply parse_scalar_ok in H as (k & _ & ->). reflexivity. Qed.
Lemma take_un_len ts : (List.length (snd (take_un ts)) <= List.length ts)%nat.
Proof. induction ts as [|t ts IH]; cbn [take_un]; [apply le_n|]. destruct (un_tok t); cbn [snd List.length]; lia. Qed.
Lemma skip_sq_len ts : (List.length (skip_sq ts) <= List.length ts)%nat.
Proof. induction ts as [|t ts IH]; [apply le_n|]. destruct t as [| | | | |o|]; cbn [skip_sq]; try lia. destruct o; try lia. cbn [List.length]. lia. Qed.

Ltac lens :=
  repeat match goal with
  | H : eat _ _ = Some _ |- _ => apply eat_len in H
  | H : eatk _ _ = Some _ |- _ => apply eatk_len in H
  | H : eat_any _ _ = Some _ |- _ => apply eat_any_len in H
  | H : expect _ _ = Ok _ |- _ => apply expect_len in H
  | H : expectk _ _ = Ok _ |- _ => apply expectk_len in H
  | H : expect_ident _ = Ok _ |- _ => apply ident_len in H
  | H : expect_string _ = Ok _ |- _ => apply string_len in H
  | H : parse_scalar _ = Some _ |- _ => apply scalar_len in H
  end.
(** take a computation that returned [Ok] apart *)
Ltac run :=
  repeat (cbn beta iota in *; match goal with
  | H : Ok _ = Ok _ |- _ => apply Ok_inj in H
  | H : (_, _) = (_, _) |- _ => injection H; clear H; intros; subst
  | H : Err _ = Ok _ |- _ => discriminate H
  | H : unexpected _ = Ok _ |- _ => unfold unexpected in H
  | H : bind _ _ = Ok _ |- _ => apply bind_ok in H as (? & ? & ?)
  | p : (_ * _)%type |- _ => destruct p
  | H : (if ?b then _ else _) = Ok _ |- _ => destruct b eqn:?
  | H : (let (_, _) := ?b in _) = Ok _ |- _ => destruct b eqn:?
  | H : (match ?b with _ => _ end) = Ok _ |- _ => destruct b eqn:?
  | H : (match ?b with _ => _ end) = (_, _) |- _ => destruct b eqn:?
  end).
Ltac useC C := repeat match goal with H : ?rec ?s ?ts = Ok (?x, ?r) |- _ => match type of C with consumes rec => let H' := fresh in pose proof (C s ts x r H) as H'; cbn [strict] in H'; clear H end end.
Lemma consumes_args rec : consumes rec -> forall ts x r, p_arguments rec ts = Ok (x, r) -> (List.length r <= List.length ts)%nat.
Proof. intros C ts x r H. unfold p_arguments in H. run; useC C; lens; lia. Qed.
Lemma consumes_cond rec : consumes rec -> forall ts x r, p_cond rec ts = Ok (x, r) -> (List.length r <= List.length ts)%nat.
Proof. intros C ts x r H. unfold p_cond in H. run; useC C; lens; lia. Qed.
Lemma consumes_calc rec : consumes rec -> forall ts x r, p_calc rec ts = Ok (x, r) -> (List.length r <= List.length ts)%nat.
Proof. intros C ts x r H. unfold p_calc in H. run; useC C; lens; lia. Qed.
Lemma consumes_len rec : consumes rec -> forall ts x r, p_len rec ts = Ok (x, r) -> (List.length r <= List.length ts)%nat.
Proof. intros C ts x r H. unfold p_len in H. run; useC C; lens; lia. Qed.
Lemma consumes_eval rec first : consumes rec -> forall ts x r, p_enum_value rec first ts = Ok (x, r) -> (List.length r <= List.length ts)%nat.
Proof. intros C ts x r H. unfold p_enum_value in H. run; useC C; lens; lia. Qed.
Ltac eatings C :=
  repeat match goal with
  | H : p_arguments _ _ = Ok _ |- _ => apply (consumes_args _ C) in H
  | H : p_cond _ _ = Ok _ |- _ => apply (consumes_cond _ C) in H
  | H : p_calc _ _ = Ok _ |- _ => apply (consumes_calc _ C) in H
  | H : p_len _ _ = Ok _ |- _ => apply (consumes_len _ C) in H
  | H : p_enum_value _ _ _ = Ok _ |- _ => apply (consumes_eval _ _ C) in H
  end; useC C; lens.
Lemma body_consumes rec : consumes rec -> consumes (body rec).
Proof.
  intros C s ts x r H. destruct s; cbn [body out strict] in *.
  1: unfold p_expr in H. 2: unfold p_bin in H. 3: unfold p_bin_loop in H. 4: unfold p_cast_loop in H.
  5: { unfold p_un in H. destruct (take_un ts) as [ops ts'] eqn:E. pose proof (take_un_len ts) as L. rewrite E in L. cbn [snd] in L. run. eatings C. lia. }
  5: { unfold p_post in H. run. match goal with |- context [skip_sq ?l] => pose proof (skip_sq_len l) end. eatings C. lia. }
  5: unfold p_post_loop in H. 6: unfold p_prim in H. 7: unfold p_args in H. 8: unfold p_flags in H.
  9: unfold p_type, p_raw, p_container, p_enum, p_bits in H. 10: unfold p_type_loop in H.
  11: unfold p_enum_loop in H. 12: unfold p_bits_loop in H. 13: unfold p_items in H. 14: unfold p_field in H. 15: unfold p_xforms in H.
  16: unfold p_targs in H. 17: unfold p_imports in H. 18: unfold p_decl, p_type_decl, p_import_decl, p_ffi_decl, p_const_decl in H. 19: unfold p_program in H.
  all: run; eatings C; cbn [List.length] in *; try lia.
Qed.
Lemma parser_consumes n : consumes (parser n).
Proof. induction n as [|n IH]; [intros s ts x r H; discriminate H|]. exact (body_consumes _ IH). Qed.

(** ** The parser terminates *)
Definition rank (s : sym) : nat :=
  match s with NPost => 1 | NUn => 2 | NBin l => 3 + (10 - l) | NExpr => 14 | NArgs => 15 | NField => 1 | NProgram => 1 | _ => 0 end%nat.
Definition nh {A} (r : res perr A) : Prop := r <> Hang.
Lemma nh_bind {A B} (a : res perr A) (f : A -> res perr B) : nh a -> (forall x, a = Ok x -> nh (f x)) -> nh (bind a f).
Proof. intros H F. destruct a; cbn; try discriminate; [apply F; reflexivity|congruence]. Qed.
Lemma nh_expect o ts : nh (expect o ts). Proof. unfold nh, expect. destruct (eat o ts); [discriminate|]. destruct ts; discriminate. Qed.
Lemma nh_expectk o ts : nh (expectk o ts). Proof. unfold nh, expectk. destruct (eatk o ts); [discriminate|]. destruct ts; discriminate. Qed.
Lemma nh_ident ts : nh (expect_ident ts). Proof. unfold nh. destruct ts as [|[] ?]; discriminate. Qed.
Lemma nh_string ts : nh (expect_string ts). Proof. unfold nh. destruct ts as [|[] ?]; discriminate. Qed.
Lemma nh_peek o ts : nh (peek_token o ts). Proof. destruct ts; discriminate. Qed.
Lemma nh_peekk o ts : nh (peek_kw o ts). Proof. destruct ts; discriminate. Qed.
Lemma nh_unexpected {A} ts : nh (@unexpected A ts). Proof. destruct ts; discriminate. Qed.
Ltac safe :=
  repeat (cbn beta iota; match goal with
  | p : (_ * _)%type |- _ => destruct p
  | |- nh (Ok _) => discriminate
  | |- nh (Err _) => discriminate
  | |- nh (expect _ _) => apply nh_expect
  | |- nh (expectk _ _) => apply nh_expectk
  | |- nh (expect_ident _) => apply nh_ident
  | |- nh (expect_string _) => apply nh_string
  | |- nh (peek_token _ _) => apply nh_peek
  | |- nh (peek_kw _ _) => apply nh_peekk
  | |- nh (unexpected _) => apply nh_unexpected
  | |- nh (bind _ _) => apply nh_bind; [|intros ? ?]
  | |- nh (if ?b then _ else _) => destruct b eqn:?
  | |- nh (let (_, _) := ?b in _) => destruct b eqn:?
  | |- nh (match ?b with _ => _ end) => destruct b eqn:?
  | |- nh (_ ?s ?ts) => fail 1
  end).
Definition enough (n : nat) := forall s ts, (32 * List.length ts + rank s < n)%nat -> nh (parser n s ts).
Ltac fuel_ok :=
  match goal with
  | IH : enough ?n |- nh (parser ?n ?s ?t) =>
      apply (IH s t); pose proof (parser_consumes n) as C; eatings C; clear C; cbn [rank strict List.length] in *;
      repeat match goal with H : (_ <? _)%nat = true |- _ => apply Nat.ltb_lt in H | H : (_ <? _)%nat = false |- _ => apply Nat.ltb_ge in H end; lia
  end.
Lemma total n : enough n.
Proof.
  induction n as [|n IH]; intros s ts L; [lia|].
  change (parser (S n) s ts) with (body (parser n) s ts).
  assert (Len : (List.length ts >= 1 \/ ts = [])%nat) by (destruct ts; [right; reflexivity|left; cbn; lia]).
  destruct s; cbn [body out rank] in *.
  5: { unfold p_un. destruct (take_un ts) as [ops ts'] eqn:E. pose proof (take_un_len ts) as Lu. rewrite E in Lu. cbn [snd] in Lu. safe. fuel_ok. }
  5: { unfold p_post. safe; fuel_ok. }
  1: unfold p_expr. 2: unfold p_bin. 3: unfold p_bin_loop. 4: unfold p_cast_loop.
  5: unfold p_post_loop. 6: unfold p_prim, p_arguments. 7: unfold p_args. 8: unfold p_flags.
  9: unfold p_type, p_raw, p_container, p_enum, p_bits, p_arguments. 10: unfold p_type_loop, p_len.
  11: unfold p_enum_loop, p_enum_value. 12: unfold p_bits_loop. 13: unfold p_items. 14: unfold p_field, p_calc, p_cond. 15: unfold p_xforms, p_arguments, p_cond.
  16: unfold p_targs. 17: unfold p_imports. 18: unfold p_decl, p_type_decl, p_import_decl, p_ffi_decl, p_const_decl. 19: unfold p_program.
  all: safe; run; try fuel_ok.
Qed.
Lemma parse_total ts : parse_tokens ts <> Hang.
Proof.
  unfold parse_tokens. pose proof (total (32 * S (List.length ts)) NProgram ts) as H. unfold nh in H.
  destruct (parser _ NProgram ts) as [[p r]| | |]; cbn; try discriminate. intros _. apply H; [cbn [rank]; lia|reflexivity].
Qed.
