(** Properties C15-C18: the tokenizer. *)
From Verif Require Import Base Tokens TokSpec TokFacts.
Open Scope string_scope. Open Scope Z_scope. Open Scope list_scope.

Lemma tokenize_all s ts : tokenize s false = Ok ts <-> tok_loop (S (List.length s)) s 64 1 0 = Ok ts.
Proof. unfold tokenize. destruct (tok_loop _ _ _ _ _); cbn [bind]; split; congruence. Qed.

(** ** C15 *)

(** C15. Tokenizing terminates on every text. *)
Lemma total s b : tokenize s b <> Hang.
Proof. unfold tokenize. pose proof (tok_loop_total (S (List.length s)) s 64 1 0 (Nat.lt_succ_diag_r _)). destruct (tok_loop _ _ _ _ _); cbn [bind]; congruence. Qed.
Theorem C15_terminates : forall s b, tokenize s b <> Hang.
Proof. exact total. Qed.
Print Assumptions C15_terminates.

(** C15. The tokens account for the whole text: it consists of texts of the tokens
    ([spells]), in order, and whitespace.  Stripping comments removes comment tokens and
    nothing else. *)
Lemma covered s ts : tokenize s false = Ok ts -> covers s (map fst ts).
Proof. intros H. apply tokenize_all in H. apply munches_covers. eapply tok_loop_munches. exact H. Qed.
Theorem C15_tokens_cover_text : forall s ts, tokenize s false = Ok ts -> covers s (map fst ts).
Proof. exact covered. Qed.
Print Assumptions C15_tokens_cover_text.
Lemma stripped s ts : tokenize s true = Ok ts -> exists all, tokenize s false = Ok all /\ ts = filter (fun x => negb (is_comment (fst x))) all.
Proof. unfold tokenize. destruct (tok_loop _ _ _ _ _) as [all| | |]; cbn [bind]; intros H; try discriminate H. apply Ok_inj in H. exists all. split; [reflexivity|congruence]. Qed.
Theorem C15_strip_removes_comments_only : forall s ts, tokenize s true = Ok ts ->
  exists all, tokenize s false = Ok all /\ ts = filter (fun x => negb (is_comment (fst x))) all.
Proof. exact stripped. Qed.
Print Assumptions C15_strip_removes_comments_only.

(** C15. Writing tokens out with whitespace between them and tokenizing gives the same
    tokens, whichever of its texts is used for each. *)
Lemma retok lead xs : ws lead -> Forall (fun e => spells (fst (fst e)) (snd (fst e)) /\ ws (snd e) /\ snd e <> []) xs ->
  exists ts, tokenize (lead ++ spaced xs) false = Ok ts /\ map fst ts = map (fun e => fst (fst e)) xs.
Proof.
  intros W F. destruct (tok_spaced xs F lead (S (List.length (lead ++ spaced xs))) 64 1 0 W (Nat.lt_succ_diag_r _)) as (ts & E & M). exists ts. split; [apply tokenize_all; exact E|exact M].
Qed.
Theorem C15_retokenize : forall lead xs, ws lead -> Forall (fun e => spells (fst (fst e)) (snd (fst e)) /\ ws (snd e) /\ snd e <> []) xs ->
  exists ts, tokenize (lead ++ spaced xs) false = Ok ts /\ map fst ts = map (fun e => fst (fst e)) xs.
Proof. exact retok. Qed.
Print Assumptions C15_retokenize.

(** C15. An error points (64 too far, see C18) at the first place where no token starts,
    and what precedes it is tokens and whitespace. *)
Lemma positioned s b i : tokenize s b = Err i -> exists pre c r, s = pre ++ c :: r /\ i = 64 + Z.of_nat (List.length pre) /\ before pre /\ is_ws c = false /\ no_token (c :: r).
Proof. unfold tokenize. destruct (tok_loop _ _ _ _ _) as [|e| |] eqn:E; cbn [bind]; intros H; try discriminate H. injection H as <-. eapply tok_loop_err. exact E. Qed.
Theorem C15_error_position : forall s b i, tokenize s b = Err i ->
  exists pre c r, s = pre ++ c :: r /\ i = 64 + Z.of_nat (List.length pre) /\ before pre /\ is_ws c = false /\ no_token (c :: r).
Proof. exact positioned. Qed.
Print Assumptions C15_error_position.

Example C15_nonvacuous : (exists ts, tokenize (bs "type a = u8[0x1F]; // x") true = Ok ts /\ map fst ts = [TKw KType; TIdent (bs "a"); TOp PEqual; TKw KU8; TOp PLeftSquare; TInt (bs "0x1F"); TOp PRightSquare; TOp PSemicolon])
  /\ tokenize (bs "a # b") false = Err 66 /\ Forall (fun e => spells (fst (fst e)) (snd (fst e)) /\ ws (snd e) /\ snd e <> []) [(TKw KType, bs "type", bs " "); (TOp PShr, bs ">>", [10; 9])].
Proof. split; [eexists; split; vm_compute; reflexivity|]. split; [vm_compute; reflexivity|]. repeat constructor; discriminate. Qed.

(** C15 as stated fails: a string escape can crash the tokenizer, and an empty unclosed
    comment at the end of the text is dropped without a token or error. *)
Theorem C15_panic_refuted : tokenize ([34; 92] ++ bs "41" ++ [34]) false = Panic /\ tokenize (bs "/*") false = Ok [].
Proof. split; vm_compute; reflexivity. Qed.
Print Assumptions C15_panic_refuted.

(** ** C16 *)

(** C16. Every token is the longest prefix of the remaining text that is the text of any
    token at all. *)
Lemma munched s ts : tokenize s false = Ok ts -> munches s (map fst ts).
Proof. intros H. apply tokenize_all in H. eapply tok_loop_munches. exact H. Qed.
Theorem C16_longest_match : forall s ts, tokenize s false = Ok ts -> munches s (map fst ts).
Proof. exact munched. Qed.
Print Assumptions C16_longest_match.
Example C16_nonvacuous : (exists ts, tokenize (bs ">>>=a?:..::>import_ffi 0x1g") false = Ok ts /\
  map fst ts = [TOp PShrSigned; TOp PEqual; TIdent (bs "a"); TOp PElvis; TOp PDotDot; TOp PDoubleColon; TOp PGt; TKw KImportFfi; TInt (bs "0x1"); TIdent (bs "g")]).
Proof. eexists. split; vm_compute; reflexivity. Qed.

(** ** C17 *)

(** C17, partial: any string of bytes that can stand in a source text round-trips when
    quotes and backslashes are escaped.  (The source is UTF-8, so this covers exactly the
    strings that are.) *)
Definition escape (l : list Z) : list Z := flat_map (fun c => if (c =? 34) || (c =? 92) then [92; c] else [c]) l.
Lemma escape_body l : str_body (escape l) l.
Proof.
  induction l as [|c l IH]; [constructor|]. cbn [escape flat_map]. destruct (Z.eqb_spec c 34) as [->|N1]; cbn [orb app]; [apply sb_esc; [reflexivity|exact IH]|]. destruct (Z.eqb_spec c 92) as [->|N2]; cbn [orb app]; [apply sb_esc; [reflexivity|exact IH]|]. apply sb_raw; assumption.
Qed.
Lemma escape_tok l : exists sp, tokenize (34 :: escape l ++ [34]) false = Ok [(TStr l, sp)].
Proof.
  assert (G : gobble (34 :: escape l ++ [34]) = GTok (TStr l) []). { rewrite gobble_str. change [34] with (34 :: []). rewrite (scan_str_app _ _ _ (escape_body l)). reflexivity. }
  eexists. apply tokenize_all. cbn [tok_loop]. rewrite G. cbn [List.length]. cbn [tok_loop bind]. reflexivity.
Qed.
Theorem C17_escape_roundtrip_partial : forall l, exists sp, tokenize (34 :: escape l ++ [34]) false = Ok [(TStr l, sp)].
Proof. exact escape_tok. Qed.
Print Assumptions C17_escape_roundtrip_partial.

(** C17 as stated fails: hexadecimal escapes are read one digit too late.  Two digits
    before the closing quote crash; and in an ASCII source every byte from 128 on in a
    literal is followed by a stray hex digit, so e.g. the byte 255 alone cannot be
    written. *)
Definition stray (l : list Z) : Prop := forall a c b, l = a ++ c :: b -> 128 <= c -> exists e b', b = e :: b' /\ is_hex e = true.
Lemma hex_val_bound c : is_hex c = true -> 0 <= hex_val c <= 15.
Proof. unfold is_hex, hex_val, is_digit. intros H. destruct ((48 <=? c) && (c <=? 57)) eqn:E; [lia|]. destruct (97 <=? c) eqn:E2; lia. Qed.
Lemma stray_cons c l : (128 <= c -> exists e b', l = e :: b' /\ is_hex e = true) -> stray l -> stray (c :: l).
Proof. intros H Sl a x b E Hx. destruct a as [|y a]; cbn [app] in E; [injection E as <- <-; auto|]. injection E as _ E. eapply Sl; eassumption. Qed.
Lemma body_stray body out : str_body body out -> Forall (fun c => c < 128) body -> stray out.
Proof.
  induction 1 as [|c body out N1 N2 _ IH|c body out Hc _ IH|h body out Hh Hb _ IH|h d e body out Hh Hd He B IH]; intros F.
  - intros a x b E. destruct a; discriminate E.
  - inversion F; subst. apply stray_cons; [lia|auto].
  - inversion F as [|? ? ? F2]; subst. inversion F2; subst. apply stray_cons; [lia|auto].
  - inversion F as [|? ? ? F2]; subst. inversion F2; subst. apply stray_cons; [pose proof (hex_val_bound _ Hh); lia|auto].
  - inversion F as [|? ? ? F2]; subst. inversion F2 as [|? ? ? F3]; subst. inversion F3; subst. apply stray_cons; [|auto]. intros _. inversion B; subst; [|discriminate He..]. exists e. eexists. split; [reflexivity|exact He].
Qed.
Lemma covers_stray s ts o : covers s ts -> Forall (fun c => c < 128) s -> In (TStr o) ts -> stray o.
Proof.
  induction 1 as [|c s ts Hc _ IH|t x s ts Sp _ IH|c N|c N Nc|]; intros F Hi.
  - destruct Hi.
  - inversion F; subst. auto.
  - apply Forall_app in F as (F1 & F2). destruct Hi as [->|Hi]; [|auto]. inversion Sp as [| | | | |body out B| |]; subst. inversion F1 as [|? ? ? F3]; subst. apply Forall_app in F3 as (F3 & _). eapply body_stray; eassumption.
  - destruct Hi as [Hi|[]]; discriminate Hi.
  - destruct Hi as [Hi|[]]; discriminate Hi.
  - destruct Hi.
Qed.
Lemma ascii_stray s ts o : Forall (fun c => c < 128) s -> tokenize s false = Ok ts -> In (TStr o) (map fst ts) -> stray o.
Proof. intros F H. eapply covers_stray; [apply covered; exact H|exact F]. Qed.
Theorem C17_hex_escape_refuted : tokenize ([34; 92] ++ bs "41" ++ [34]) false = Panic /\
  (exists sp, tokenize ([34; 92] ++ bs "41B" ++ [34]) false = Ok [(TStr [27; 66], sp)]) /\
  (forall s ts o, Forall (fun c => c < 128) s -> tokenize s false = Ok ts -> In (TStr o) (map fst ts) -> stray o) /\ ~ stray [255].
Proof.
  split; [vm_compute; reflexivity|]. split; [eexists; vm_compute; reflexivity|]. split; [exact ascii_stray|]. intros H. destruct (H [] 255 [] eq_refl) as (e & b & E & _); [lia|discriminate E].
Qed.
Print Assumptions C17_hex_escape_refuted.
Example C17_nonvacuous : exists sp, tokenize (34 :: escape (bs "say ""hi"" \ 1") ++ [34]) false = Ok [(TStr (bs "say ""hi"" \ 1"), sp)].
Proof. eexists. vm_compute. reflexivity. Qed.

(** ** C18 *)

(** C18, partial: if no token spans lines (no comments, no newline in a string), lines
    are right and so are columns, except that those of the first line are 64 too large. *)
Lemma positions s ts : tokenize s false = Ok ts -> Forall (fun e => one_line (fst e)) ts -> placed [] s ts.
Proof. intros H O. apply tokenize_all in H. eapply tok_loop_placed; [exact H|exact O|reflexivity|reflexivity]. Qed.
Theorem C18_positions_partial : forall s ts, tokenize s false = Ok ts -> Forall (fun e => one_line (fst e)) ts -> placed [] s ts.
Proof. exact positions. Qed.
Print Assumptions C18_positions_partial.
Example C18_nonvacuous : exists ts, tokenize (bs "const a" ++ [10] ++ bs "  = 5") false = Ok ts /\ Forall (fun e => one_line (fst e)) ts /\
  nth_error ts 3 = Some (TInt (bs "5"), {| line_start := 2; line_stop := 2; col_start := 5; col_stop := 6 |}).
Proof. eexists. split; [vm_compute; reflexivity|]. split; [repeat constructor|reflexivity]. Qed.

(** C18 as stated fails: first-line columns are off by 64; after a comment, columns are
    counted from an earlier line (the number 5 stands in column 1, resp. 3, of line 3);
    a newline inside a string is not counted; and a line comment at the end of the text
    claims to end one line further down. *)
Theorem C18_positions_refuted :
  tokenize (bs "a") false = Ok [(TIdent (bs "a"), {| line_start := 1; line_stop := 1; col_start := 65; col_stop := 66 |})] /\
  tokenize ([10] ++ bs "//x" ++ [10] ++ bs "5") true = Ok [(TInt (bs "5"), {| line_start := 3; line_stop := 3; col_start := 5; col_stop := 6 |})] /\
  tokenize ([10] ++ bs "/*" ++ [10] ++ bs "*/5") true = Ok [(TInt (bs "5"), {| line_start := 3; line_stop := 3; col_start := 6; col_stop := 7 |})] /\
  (exists ts, tokenize ([10; 34; 10; 34] ++ bs "5") false = Ok ts /\ nth_error ts 1 = Some (TInt (bs "5"), {| line_start := 2; line_stop := 2; col_start := 4; col_stop := 5 |})) /\
  tokenize (10 :: bs "//") false = Ok [(TLine [], {| line_start := 2; line_stop := 3; col_start := 1; col_stop := 3 |})].
Proof. repeat split; try (vm_compute; reflexivity). eexists. split; vm_compute; reflexivity. Qed.
Print Assumptions C18_positions_refuted.
