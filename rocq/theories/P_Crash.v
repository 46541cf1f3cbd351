(** Property C52: the compiler does not crash on what it is given.  The texts it is claimed for: Tame.v. *)
From Verif Require Import Heads Base Scalar ConstInt Tokens TokFacts Ast Parse ParseFacts Front Program PreludeNames Tame NoPanic P_Types.
From Coq Require Import Lia.
Open Scope string_scope. Open Scope Z_scope. Open Scope list_scope.

(** No backslash is followed by two hexadecimal digits and then something else (an escape such as the documented [\\1f]); three digits in a row are accepted. *)
Fixpoint no_hex_escape (text : list Z) : Prop :=
  match text with
  | [] => True
  | x :: r =>
      match r with
      | c :: d :: r2 => x = 92 -> is_hex c = true -> is_hex d = true -> match r2 with e :: _ => is_hex e = true | [] => False end
      | _ => True
      end /\ no_hex_escape r
  end.

Lemma nhe_tl a b : no_hex_escape (a ++ b) -> no_hex_escape b.
Proof. induction a as [|c a IH]; [auto|]. intros [_ H]. exact (IH H). Qed.
Lemma scan_str_np : forall k l, (List.length l <= k)%nat -> no_hex_escape l -> scan_str l <> SPanic.
Proof.
  assert (P : forall b s, s <> SPanic -> scan_push b s <> SPanic) by (intros b []; cbn; congruence).
  induction k as [|k IH]; intros l L H; [destruct l; [discriminate|cbn in L; lia]|]. destruct l as [|x r]; [discriminate|]. cbn [List.length] in L. pose proof (proj2 H) as H2.
  cbn [scan_str]. destruct (Z.eqb_spec x 92) as [->|].
  - destruct r as [|c r1]; [discriminate|]. cbn [List.length] in L. pose proof (proj2 H2) as H3. destruct (is_hex c) eqn:C.
    + destruct r1 as [|d r2]; [discriminate|]. cbn [List.length] in L. destruct (is_hex d) eqn:D; [|apply P, IH; [cbn [List.length]; lia|exact H3]].
      pose proof (proj1 H eq_refl C D) as K. cbn beta iota in K. destruct r2 as [|e r3]; [destruct K|]. rewrite K. apply P, IH; [lia|exact (proj2 H3)].
    + apply P, IH; [lia|exact H3].
  - destruct (x =? 34); [discriminate|]. apply P, IH; [lia|exact H2].
Qed.
Lemma gobble_np l : no_hex_escape l -> gobble l <> GPanic.
Proof.
  intros H. unfold gobble. destruct l as [|c r]; [discriminate|]. destruct (is_ws c); [discriminate|]. destruct (c =? 34).
  - pose proof (scan_str_np (List.length r) r (le_n _) (proj2 H)) as K. destruct (scan_str r); try discriminate. congruence.
  - destruct (is_digit c); [destruct (scan_int c r); discriminate|]. destruct (punct_at puncts (c :: r)) as [[[o| |] rest]|]; try discriminate.
    + destruct (scan_line rest); discriminate.
    + destruct rest; [discriminate|]. destruct (scan_block _); discriminate.
    + destruct (eat_identifier (c :: r)) as [[w rest]|]; discriminate.
Qed.
Lemma gobble_rest l : match gobble l with GTok _ rest | GNone rest => exists a, l = a ++ rest | GPanic => True end.
Proof.
  destruct (gobble l) as [t rest|rest|] eqn:E; [| |exact I].
  - apply gobble_tok in E. destruct E as [(x & -> & _)|(-> & _)]; [exists x; reflexivity|exists l; rewrite app_nil_r; reflexivity].
  - apply gobble_none in E as [->|[(c & -> & _)|[-> ->]]]; [exists []; reflexivity|exists [c]; reflexivity|exists (bs "/*"); reflexivity].
Qed.
Lemma tok_np : forall fuel l i n k, no_hex_escape l -> tok_loop fuel l i n k <> Panic.
Proof.
  induction fuel as [|fuel IH]; intros l i n k H; [discriminate|]. cbn [tok_loop]. destruct l as [|c r]; [discriminate|].
  pose proof (gobble_np _ H) as G. pose proof (gobble_rest (c :: r)) as R. destruct (gobble (c :: r)) as [t rest|rest|]; [| |congruence].
  - destruct R as [a E]. rewrite E in H. apply nhe_tl in H. cbv zeta. match goal with |- bind (tok_loop fuel rest ?i ?n ?k) _ <> Panic => pose proof (IH rest i n k H) as K; destruct (tok_loop fuel rest i n k) end; cbn; congruence.
  - destruct R as [a E]. rewrite E in H. apply nhe_tl in H. destruct (List.length rest =? 0)%nat; [discriminate|]. destruct (_ =? _)%nat; [discriminate|]. cbv zeta. destruct (c =? 10); apply IH, H.
Qed.

(** The parser itself never panics. *)
Definition np {A} (r : res perr A) : Prop := r <> Panic.
Lemma np_bind {A B} (a : res perr A) (f : A -> res perr B) : np a -> (forall x, np (f x)) -> np (bind a f).
Proof. intros H F. destruct a; cbn; try discriminate; [apply F|congruence]. Qed.
Lemma np_expect o ts : np (expect o ts). Proof. unfold np, expect. destruct (Parse.eat o ts); [discriminate|]. destruct ts; discriminate. Qed.
Lemma np_expectk o ts : np (expectk o ts). Proof. unfold np, expectk. destruct (eatk o ts); [discriminate|]. destruct ts; discriminate. Qed.
Lemma np_ident ts : np (expect_ident ts). Proof. unfold np. destruct ts as [|[] ?]; discriminate. Qed.
Lemma np_string ts : np (expect_string ts). Proof. unfold np. destruct ts as [|[] ?]; discriminate. Qed.
Lemma np_peek o ts : np (peek_token o ts). Proof. destruct ts; discriminate. Qed.
Lemma np_peekk o ts : np (peek_kw o ts). Proof. destruct ts; discriminate. Qed.
Lemma np_unexpected {A} ts : np (@unexpected A ts). Proof. destruct ts; discriminate. Qed.
Ltac calm :=
  repeat (cbn beta iota; match goal with
  | p : (_ * _)%type |- _ => destruct p
  | |- np (Ok _) => discriminate
  | |- np (Err _) => discriminate
  | |- np (expect _ _) => apply np_expect
  | |- np (expectk _ _) => apply np_expectk
  | |- np (expect_ident _) => apply np_ident
  | |- np (expect_string _) => apply np_string
  | |- np (peek_token _ _) => apply np_peek
  | |- np (peek_kw _ _) => apply np_peekk
  | |- np (unexpected _) => apply np_unexpected
  | |- np (bind _ _) => apply np_bind; [|intros ?]
  | |- np (if ?b then _ else _) => destruct b
  | |- np (let (_, _) := ?b in _) => destruct b
  | |- np (match ?b with _ => _ end) => destruct b
  | IH : forall s ts, np (parser ?n s ts) |- np (parser ?n _ _) => apply IH
  end).
Lemma parser_np : forall n s ts, np (parser n s ts).
Proof.
  induction n as [|n IH]; intros s ts; [discriminate|]. change (parser (S n) s ts) with (body (parser n) s ts).
  destruct s; cbn [body out].
  1: unfold p_expr. 2: unfold p_bin. 3: unfold p_bin_loop. 4: unfold p_cast_loop. 5: unfold p_un. 6: unfold p_post.
  7: unfold p_post_loop. 8: unfold p_prim, p_arguments. 9: unfold p_args. 10: unfold p_flags.
  11: unfold p_type, p_raw, p_container, p_enum, p_bits, p_arguments. 12: unfold p_type_loop, p_len.
  13: unfold p_enum_loop, p_enum_value. 14: unfold p_bits_loop. 15: unfold p_items. 16: unfold p_field, p_calc, p_cond. 17: unfold Parse.p_xforms, p_arguments, p_cond.
  18: unfold p_targs. 19: unfold p_imports. 20: unfold p_decl, p_type_decl, p_import_decl, p_ffi_decl, p_const_decl. 21: unfold p_program.
  all: calm; match goal with |- np (parser _ ?s ?t) => exact (IH s t) end.
Qed.
Lemma parse_np text : no_hex_escape text -> parse text <> Panic.
Proof.
  intros H. unfold parse, tokenize. pose proof (tok_np (S (List.length text)) text 64 1 0 H) as K. destruct (tok_loop _ text 64 1 0) as [ts| | |]; cbn [bind]; try discriminate; [|congruence].
  unfold parse_tokens. match goal with |- bind (parser ?a ?b ?c) _ <> Panic => pose proof (parser_np a b c) as N; destruct (parser a b c) as [[x y]| | |] end; cbn; try discriminate. intros _. exact (N eq_refl).
Qed.

Lemma compiler_np en rs n k text : sound_resolver rs -> no_hex_escape text -> (forall a, parse text = Ok a -> tame_program rs a) -> analyse en rs n k text <> Panic.
Proof.
  intros S H T. unfold analyse. pose proof (parse_np text H) as N. destruct (parse text) as [a| | |] eqn:Ep; try discriminate; [|intros _; exact (N eq_refl)]. apply (analysis_safe en rs S), (parsed_headed rs text a); [assumption|]. apply T. reflexivity.
Qed.
(** C52. Tokenizer, parser and analysis, imports included, return a program or a diagnostic (or run out of the stack the model gives them) on every text without hexadecimal escapes whose
    tree is tame.  Missing: what the refuted theorem below shows to be false, and that the analysis ends, which fails for comparisons of recursive types (C22) and cyclic imports (C29). *)
Theorem C52_compiler_never_panics_partial : forall en rs n k text, sound_resolver rs -> no_hex_escape text -> (forall a, parse text = Ok a -> tame_program rs a) ->
  analyse en rs n k text <> Panic.
Proof. exact compiler_np. Qed.
Print Assumptions C52_compiler_never_panics_partial.
(** C52, the parser alone. *)
Theorem C52_parser_never_panics : forall text, no_hex_escape text -> parse text <> Panic.
Proof. exact parse_np. Qed.
Print Assumptions C52_parser_never_panics.

(** C52: the parser gives the first item of every enum and bitfield a value; the analysis would crash without it (convert/types/enum_.rs and bitfield.rs unwrap it). *)
Theorem C52_parsed_items_have_values : forall rs text a, parse text = Ok a -> tame_program rs a -> headed_program rs a.
Proof. exact parsed_headed. Qed.
Print Assumptions C52_parsed_items_have_values.

(** The prelude's resolver meets the hypothesis, and any count up to one argument suits its functions. *)
Definition prelude_only : resolver := with_prelude no_resolver.
Lemma func_cases x f : prelude_func x = Some f -> simple_type (fn_ret f) /\ Forall fparam_basic (fn_params f) /\ (1 <= List.length (required (fn_params f)))%nat.
Proof.
  unfold prelude_func. destruct (_ || _); [intros E; injection E as <-; cbn; repeat constructor|]. destruct (name_eqb _ _); [intros E; injection E as <-; cbn; repeat constructor|].
  destruct (name_eqb _ _); [intros E; injection E as <-; cbn; repeat constructor|discriminate].
Qed.
Lemma prelude_sound : sound_resolver prelude_only.
Proof.
  constructor.
  - intros x f [E|[E|[]]]; injection E as <- <-; cbn; repeat constructor.
  - intros x. cbn. unfold prelude_type. destruct (existsb _ _); [split; [discriminate|]; intros ps E; injection E as <-; constructor|].
    destruct (name_eqb _ _); [split; [discriminate|]; intros ps E; injection E as <-; repeat constructor|].
    destruct (name_eqb _ _); [split; [discriminate|]; intros ps E; injection E as <-; repeat constructor|]. split; discriminate.
  - intros x. cbn. unfold prelude_xform. destruct (_ || _); (split; [discriminate|]); intros ps E; [injection E as <-; constructor|discriminate].
  - intros x. cbn. destruct (prelude_func x) as [f|] eqn:F; (split; [discriminate|]); intros g E; [injection E as <-|discriminate]. destruct (func_cases x f F) as (A & B & _). exact (conj A B).
  - discriminate.
  - intros x. split; discriminate.
Qed.
Lemma one_arg f k : (k <= 1)%nat -> fn_few prelude_only f k.
Proof.
  intros K fn [H|H]; left.
  - destruct H as [E|[E|[]]]; injection E as <- <-; cbn; lia.
  - cbn in H. destruct (prelude_func f) as [g|] eqn:F; [|discriminate]. injection H as <-. destruct (func_cases f g F) as (_ & _ & L). lia.
Qed.

Definition crash_free : string := "const magic: u16 = 0x1000 + 7; type kind = enum u8 { a = 1, b, other = default }; type perms = bitfield u8 { r = 1, w, x }; type node (k: kind, n: u8 ? 3) = container { len: u64 = len(data), p: perms, data: u8[len] { p.r && k == kind::a }, .pad: n :> u64, next: node(k) { p.w } };".
Definition crash_free_tree : aprogram := Eval vm_compute in match parse (bs crash_free) with Ok a => a | _ => [] end.
Lemma crash_free_tame : tame_program prelude_only crash_free_tree.
Proof. unfold tame_program, tame, crash_free_tree. repeat first [apply Forall_cons | apply Forall_nil | split | exact I | apply one_arg, le_n]. Qed.
Example C52_nonvacuous : sound_resolver prelude_only /\ no_hex_escape (bs crash_free) /\ parse (bs crash_free) = Ok crash_free_tree /\ crash_free_tree <> [] /\ tame_program prelude_only crash_free_tree /\
  (exists p, analyse prelude_env prelude_only 20 2 (bs crash_free) = Ok p).
Proof.
  split; [exact prelude_sound|]. split; [vm_compute; repeat split; discriminate|]. split; [vm_compute; reflexivity|]. split; [discriminate|]. split; [exact crash_free_tame|].
  exists (match analyse prelude_env prelude_only 20 2 (bs crash_free) with Ok p => p | _ => {| p_store := []; p_types := []; p_consts := []; p_xforms := []; p_funcs := [] |} end). vm_compute. reflexivity.
Qed.

Lemma every_escape en rs n k rest : analyse en rs n k (bs """\12z" ++ rest) = Panic.
Proof. lazy. reflexivity. Qed.
(** C52 fails without those conditions.  Each line is a text and the condition it violates: a hexadecimal escape; a call with an argument too many; an index into an array that has a name. *)
Definition crashes_on (text : string) : Prop := analyse prelude_env prelude_only 20 2 (bs text) = Panic.
Theorem C52_crashes_refuted :
  crashes_on "const a: u8[..3] = ""\12z"";" /\
  crashes_on "type c = container { n: u64 = len(n, n) };" /\
  crashes_on "type a = u8[4]; type c = container { x: a, y: u8 { x[0] == 1 } };" /\
  (forall en rs n k rest, analyse en rs n k (bs """\12z" ++ rest) = Panic).
Proof. split; [vm_compute; reflexivity|]. split; [vm_compute; reflexivity|]. split; [vm_compute; reflexivity|]. exact every_escape. Qed.
Print Assumptions C52_crashes_refuted.
