(** Properties C19-C21: the parser. *)
From Verif Require Import Base Scalar Tokens TokSpec TokFacts Ast Parse Grammar ParseFacts ParseSound ParseComplete Print PrintFacts.
Open Scope string_scope. Open Scope Z_scope. Open Scope list_scope.

(** [ts] is read as the expression [e], whatever follows, as long as something follows and it does not continue an expression. *)
Definition reads_as (ts : list token) (e : aexpr) : Prop :=
  forall t r, continues t = false -> parse_expression (ts ++ t :: r) = Ok (e, t :: r).

(** ** C19 *)
Lemma reads e ts : g_expr e ts -> reads_as ts e.
Proof. intros G t r N. rewrite parse_expression_full. apply (complete_expr _ _ G). cbn [stop]. apply continues_str in N. rewrite N. lia. Qed.

(** C19. Every expression tree, printed with parentheses only where the precedence table
    asks for them, is read back as itself, consuming exactly its own tokens. *)
Theorem C19_print_parse : forall e, ok_e e = true -> reads_as (pr e) e.
Proof. intros e K. exact (reads e (pr e) (print_expr_ok e K)). Qed.
Print Assumptions C19_print_parse.

(** C19. So is every other way to write the tree that the grammar allows (extra parentheses, trailing commas, ...). *)
Theorem C19_every_spelling : forall e ts, g_expr e ts -> reads_as ts e.
Proof. exact reads. Qed.
Print Assumptions C19_every_spelling.

(** C19. Nothing else is accepted: the consumed tokens write the tree that is returned. *)
Theorem C19_only_grammar : forall ts e r, parse_expression ts = Ok (e, r) -> exists ph, ts = ph ++ r /\ g_expr e ph.
Proof. intros ts e r H. apply (parser_sound _ NExpr) in H. destruct H as (ph & E & G & _). exists ph. split; assumption. Qed.
Print Assumptions C19_only_grammar.

(** C19. No token sequence writes two expressions. *)
Theorem C19_unambiguous : forall ts e1 e2, g_expr e1 ts -> g_expr e2 ts -> e1 = e2.
Proof. intros ts e1 e2 G1 G2. pose proof (reads _ _ G1 (TOp PSemicolon) [] eq_refl) as H. rewrite (reads _ _ G2 (TOp PSemicolon) [] eq_refl) in H. injection H as <-. reflexivity. Qed.
Print Assumptions C19_unambiguous.

(** C19. Parentheses are only printed where they are needed: no other spelling of the tree is shorter,
    and an operand printed in parentheses would not be an operand without them. *)
Lemma tight l e ts : g_at l e ts -> (plev e < S l)%nat -> exists r, ts = TOp PLeftParen :: r ++ [TOp PRightParen] /\ g_expr e r.
Proof.
  intros G. induction G; unfold primary_prec, postfix_prec, unary_prec, cast_prec in *; cbn [plev]; unfold primary_prec, postfix_prec, unary_prec, cast_prec; intros Lt; try lia; eauto.
Qed.
Lemma needed e ts : g_expr e ts -> (List.length (pr e) <= List.length ts)%nat /\ forall l, (plev e < S l)%nat -> ~ g_at l e (pr e).
Proof.
  intros G. split; [apply grammar_expr; exact G|]. intros l L G'. destruct (tight _ _ _ G' L) as (r & E & Gr). apply grammar_expr in Gr as (_ & Gr).
  rewrite E in Gr. cbn [List.length] in Gr. rewrite app_length in Gr. cbn in Gr. lia.
Qed.
Theorem C19_parentheses_needed : forall e ts, g_expr e ts -> (List.length (pr e) <= List.length ts)%nat /\ forall l, (plev e < S l)%nat -> ~ g_at l e (pr e).
Proof. exact needed. Qed.
Print Assumptions C19_parentheses_needed.

(** C19. The parser always stops. *)
Theorem C19_terminates : forall ts, parse_expression ts <> Hang /\ parse_tokens ts <> Hang.
Proof. intros ts. split; [|apply parse_total]. apply (total (32 * S (List.length ts)) NExpr ts). cbn [rank]. lia. Qed.
Print Assumptions C19_terminates.

Definition id (s : string) : aexpr := ARef (bs s).
(** "(a + b) * -c ? f(x, 1 u16,)[0].m : y :> t" *)
Definition sample_expr : aexpr := ATern (ABin BMul (ABin BAdd (id "a") (id "b")) (AUn UNegate (id "c")))
  (AMember (AIndex (ACall (bs "f") [id "x"; AInt (bs "1") (Some U16)]) (AInt (bs "0") None)) (bs "m")) (ACast (id "y") (YRef (bs "t") [])).
Example C19_nonvacuous : ok_e sample_expr = true /\
  pr sample_expr = [TOp PLeftParen; TIdent (bs "a"); TOp PPlus; TIdent (bs "b"); TOp PRightParen; TOp PMul; TOp PMinus; TIdent (bs "c"); TOp PQuestion;
    TIdent (bs "f"); TOp PLeftParen; TIdent (bs "x"); TOp PComma; TInt (bs "1"); TKw KU16; TOp PRightParen; TOp PLeftSquare; TInt (bs "0"); TOp PRightSquare; TOp PDot; TIdent (bs "m");
    TOp PColon; TIdent (bs "y"); TOp PCast; TIdent (bs "t")] /\
  parse_expression (pr sample_expr ++ [TOp PSemicolon]) = Ok (sample_expr, [TOp PSemicolon]).
Proof. split; [reflexivity|split; vm_compute; reflexivity]. Qed.

(** ** C20 *)
(** operands: anything that binds at least as tightly as a unary operator *)
Lemma operand l e ts : (l <= 11)%nat -> g_at 11 e ts -> g_at l e ts.
Proof. intros L G. apply (lvl_down (S l) 12 e ts) in G; [exact G|lia|lia]. Qed.
Lemma prec_max o : (op_prec o <= 10)%nat. Proof. destruct o; cbn; lia. Qed.
Lemma at_expr l e ts : (l <= 13)%nat -> g_at l e ts -> g_expr e ts.
Proof. intros L G. apply (lvl_down 0 (S l) e ts) in G; [exact G|lia|lia]. Qed.

(** C20. "a op1 b op2 c" groups to the left when op1 binds at least as tightly as op2, and to the right otherwise. *)
Lemma group_left o1 o2 a b c ta tb tc : g_at unary_prec a ta -> g_at unary_prec b tb -> g_at unary_prec c tc -> (op_prec o2 <= op_prec o1)%nat ->
  reads_as (ta ++ TOp (op_sym o1) :: tb ++ TOp (op_sym o2) :: tc) (ABin o2 (ABin o1 a b) c).
Proof.
  intros Ga Gb Gc L. apply reads. pose proof (prec_max o1). pose proof (prec_max o2).
  replace (ta ++ TOp (op_sym o1) :: tb ++ TOp (op_sym o2) :: tc) with ((ta ++ TOp (op_sym o1) :: tb) ++ TOp (op_sym o2) :: tc) by (rewrite <- app_assoc; reflexivity).
  apply (at_expr (op_prec o2)); [lia|]. apply ga_binary; [reflexivity| |apply operand; [lia|exact Gc]].
  apply (lvl_down (S (op_prec o2)) (S (op_prec o1))); [lia|lia|]. cbn [g_lvl]. apply ga_binary; [reflexivity|apply operand; [lia|exact Ga]|apply operand; [lia|exact Gb]].
Qed.
Lemma group_right o1 o2 a b c ta tb tc : g_at unary_prec a ta -> g_at unary_prec b tb -> g_at unary_prec c tc -> (op_prec o1 < op_prec o2)%nat ->
  reads_as (ta ++ TOp (op_sym o1) :: tb ++ TOp (op_sym o2) :: tc) (ABin o1 a (ABin o2 b c)).
Proof.
  intros Ga Gb Gc L. apply reads. pose proof (prec_max o1). pose proof (prec_max o2).
  apply (at_expr (op_prec o1)); [lia|]. apply ga_binary; [reflexivity|apply operand; [lia|exact Ga]|].
  apply (lvl_down (S (S (op_prec o1))) (S (op_prec o2))); [lia|lia|]. cbn [g_lvl]. apply ga_binary; [reflexivity|apply operand; [lia|exact Gb]|apply operand; [lia|exact Gc]].
Qed.
Theorem C20_grouping : forall o1 o2 a b c ta tb tc, g_at unary_prec a ta -> g_at unary_prec b tb -> g_at unary_prec c tc ->
  reads_as (ta ++ TOp (op_sym o1) :: tb ++ TOp (op_sym o2) :: tc)
    (if (op_prec o2 <=? op_prec o1)%nat then ABin o2 (ABin o1 a b) c else ABin o1 a (ABin o2 b c)).
Proof.
  intros o1 o2 a b c ta tb tc Ga Gb Gc. destruct (Nat.leb_spec (op_prec o2) (op_prec o1)); [apply group_left|apply group_right]; assumption.
Qed.
Print Assumptions C20_grouping.

(** C20. A cast binds tighter than every binary operator except [?:], which it shares its level with. *)
Lemma cast_tight o a b t ta tb tt : g_at unary_prec a ta -> g_at unary_prec b tb -> g_type t tt ->
  (o <> BElvis -> reads_as (ta ++ TOp (op_sym o) :: tb ++ TOp PCast :: tt) (ABin o a (ACast b t))) /\
  reads_as (ta ++ TOp PCast :: tt ++ TOp (op_sym o) :: tb) (ABin o (ACast a t) b) /\
  reads_as (ta ++ TOp PElvis :: tb ++ TOp PCast :: tt) (ACast (ABin BElvis a b) t).
Proof.
  intros Ga Gb Gt. pose proof (prec_max o). split; [|split].
  - intros N. assert (op_prec o < 10)%nat by (destruct o; cbn; try lia; congruence). apply reads. apply (at_expr (op_prec o)); [lia|]. apply ga_binary; [reflexivity|apply operand; [unfold cast_prec; lia|exact Ga]|].
    apply (lvl_down (S (S (op_prec o))) 11); [lia|lia|]. cbn [g_lvl]. apply ga_cast; [apply operand; [unfold cast_prec; lia|exact Gb]|exact Gt].
  - apply reads. replace (ta ++ TOp PCast :: tt ++ TOp (op_sym o) :: tb) with ((ta ++ TOp PCast :: tt) ++ TOp (op_sym o) :: tb) by (rewrite <- app_assoc; reflexivity).
    apply (at_expr (op_prec o)); [lia|]. apply ga_binary; [reflexivity| |apply operand; [unfold cast_prec; lia|exact Gb]].
    apply (lvl_down (S (op_prec o)) 11); [lia|lia|]. cbn [g_lvl]. apply ga_cast; [apply operand; [unfold cast_prec; lia|exact Ga]|exact Gt].
  - apply reads. replace (ta ++ TOp PElvis :: tb ++ TOp PCast :: tt) with ((ta ++ TOp (op_sym BElvis) :: tb) ++ TOp PCast :: tt) by (rewrite <- app_assoc; reflexivity).
    apply (at_expr 10); [lia|]. apply ga_cast; [|exact Gt]. apply ga_binary; [reflexivity|apply operand; [unfold cast_prec; lia|exact Ga]|exact Gb].
Qed.
Theorem C20_cast : forall o a b t ta tb tt, g_at unary_prec a ta -> g_at unary_prec b tb -> g_type t tt ->
  (o <> BElvis -> reads_as (ta ++ TOp (op_sym o) :: tb ++ TOp PCast :: tt) (ABin o a (ACast b t))) /\
  reads_as (ta ++ TOp PCast :: tt ++ TOp (op_sym o) :: tb) (ABin o (ACast a t) b) /\
  reads_as (ta ++ TOp PElvis :: tb ++ TOp PCast :: tt) (ACast (ABin BElvis a b) t).
Proof. exact cast_tight. Qed.
Print Assumptions C20_cast.

(** C20. Unary operators bind tighter than casts and binary operators, but looser than indexing and member access. *)
Lemma unary_tight u o a b t m i ta tb tt ti : g_at postfix_prec a ta -> g_at unary_prec b tb -> g_type t tt -> g_expr i ti ->
  reads_as (TOp (un_sym u) :: ta ++ TOp (op_sym o) :: tb) (ABin o (AUn u a) b) /\
  reads_as (TOp (un_sym u) :: ta ++ TOp PCast :: tt) (ACast (AUn u a) t) /\
  reads_as (TOp (un_sym u) :: ta ++ TOp PLeftSquare :: ti ++ [TOp PRightSquare]) (AUn u (AIndex a i)) /\
  reads_as (TOp (un_sym u) :: ta ++ [TOp PDot; TIdent m]) (AUn u (AMember a m)).
Proof.
  intros Ga Gb Gt Gi. pose proof (prec_max o). assert (Gu : g_at 11 (AUn u a) (TOp (un_sym u) :: ta)) by (apply ga_unary; apply ga_tighter; [unfold primary_prec, unary_prec; lia|exact Ga]).
  split; [|split; [|split]]; apply reads.
  - apply (at_expr (op_prec o)); [lia|]. apply (ga_binary _ o _ _ (TOp (un_sym u) :: ta) tb); [reflexivity|apply operand; [lia|exact Gu]|apply operand; [lia|exact Gb]].
  - apply (at_expr 10); [lia|]. apply (ga_cast _ _ (TOp (un_sym u) :: ta) tt); [apply operand; [unfold cast_prec; lia|exact Gu]|exact Gt].
  - apply (at_expr 11); [lia|]. apply ga_unary. apply ga_tighter; [unfold primary_prec, unary_prec; lia|]. apply ga_index; assumption.
  - apply (at_expr 11); [lia|]. apply ga_unary. apply ga_tighter; [unfold primary_prec, unary_prec; lia|]. apply ga_member; assumption.
Qed.
Theorem C20_unary : forall u o a b t m i ta tb tt ti, g_at postfix_prec a ta -> g_at unary_prec b tb -> g_type t tt -> g_expr i ti ->
  reads_as (TOp (un_sym u) :: ta ++ TOp (op_sym o) :: tb) (ABin o (AUn u a) b) /\
  reads_as (TOp (un_sym u) :: ta ++ TOp PCast :: tt) (ACast (AUn u a) t) /\
  reads_as (TOp (un_sym u) :: ta ++ TOp PLeftSquare :: ti ++ [TOp PRightSquare]) (AUn u (AIndex a i)) /\
  reads_as (TOp (un_sym u) :: ta ++ [TOp PDot; TIdent m]) (AUn u (AMember a m)).
Proof. exact unary_tight. Qed.
Print Assumptions C20_unary.
Example C20_nonvacuous : g_at unary_prec (id "a") [TIdent (bs "a")] /\ g_type (YRef (bs "t") []) [TIdent (bs "t")] /\
  parse_expression [TIdent (bs "a"); TOp PBitAnd; TIdent (bs "b"); TOp PEq; TIdent (bs "c"); TOp PSemicolon] = Ok (ABin BBitAnd (id "a") (ABin BEq (id "b") (id "c")), [TOp PSemicolon]).
Proof. split; [do 2 (apply ga_tighter; [unfold primary_prec, unary_prec; lia|]); apply ga_ref|split; [apply gt_ref; apply go_none|vm_compute; reflexivity]]. Qed.

(** ** C21 *)
(** C21. A program is accepted exactly if the grammar writes it, with the tree the grammar gives it. *)
Theorem C21_parser_is_grammar : forall ts p, parse_tokens ts = Ok p <-> g_program p ts.
Proof. exact parse_iff. Qed.
Print Assumptions C21_parser_is_grammar.

(** C21. Every program tree that has a concrete syntax is read back from it, and the parser builds no other trees. *)
Theorem C21_print_parse : forall p, ok_program p = true -> parse_tokens (print_program p) = Ok p.
Proof. intros p K. apply parse_iff. exact (print_program_ok p K). Qed.
Print Assumptions C21_print_parse.
Theorem C21_result_printable : forall ts p, parse_tokens ts = Ok p -> ok_program p = true /\ parse_tokens (print_program p) = parse_tokens ts.
Proof. intros ts p H. assert (K : ok_program p = true) by (apply parse_iff in H; exact (grammar_program p ts H)). split; [exact K|]. rewrite H. exact (C21_print_parse p K). Qed.
Print Assumptions C21_result_printable.

(** C21. From the text: tokens separated by whitespace, with comments anywhere between them. *)
Definition is_comment_free (t : token) : bool := negb (is_comment t).
Lemma text lead xs : ws lead -> Forall (fun e => spells (fst (fst e)) (snd (fst e)) /\ ws (snd e) /\ snd e <> []) xs ->
  parse (lead ++ spaced xs) = parse_tokens (filter is_comment_free (map (fun e => fst (fst e)) xs)).
Proof.
  intros W F. destruct (tok_spaced xs F lead (S (List.length (lead ++ spaced xs))) 64 1 0 W (Nat.lt_succ_diag_r _)) as (ts & E & M).
  unfold parse, tokenize. rewrite E. cbn [bind]. f_equal. rewrite <- M. clear. induction ts as [|[t s] ts IH]; [reflexivity|]. cbn [filter fst map].
  unfold is_comment_free at 1. destruct (is_comment t); cbn [negb map fst]; [exact IH|]. cbn [fst]. f_equal. exact IH.
Qed.
Theorem C21_text : forall p lead xs, g_program p (filter is_comment_free (map (fun e => fst (fst e)) xs)) ->
  ws lead -> Forall (fun e => spells (fst (fst e)) (snd (fst e)) /\ ws (snd e) /\ snd e <> []) xs -> parse (lead ++ spaced xs) = Ok p.
Proof. intros p lead xs G W F. rewrite (text lead xs W F). apply parse_iff. exact G. Qed.
Print Assumptions C21_text.

(** C21. A trailing comma is accepted in every comma list, and changes nothing. *)
Definition comma := TOp PComma.
Definition enum_item (first : bool) (x : name * aenum) (ts : list token) : Prop := exists tv, ts = TIdent (fst x) :: tv /\ g_eval first (snd x) tv.
Definition bit_item (first : bool) (x : name * option aexpr) (ts : list token) : Prop := exists tv, ts = TIdent (fst x) :: tv /\ g_bval first (snd x) tv.
Definition first_then {A} (R : bool -> A -> list token -> Prop) (first : bool) (l : list A) (tss : list (list token)) : Prop :=
  match l, tss with x :: l, ts :: tss => R first x ts /\ Forall2 (R false) l tss | _, _ => False end.
Lemma commas {A} (G : list A -> list token -> Prop) (R : A -> list token -> Prop) :
  G [] [] -> (forall x t, R x t -> G [x] t) -> (forall x t l tl, R x t -> G l tl -> G (x :: l) (t ++ comma :: tl)) ->
  forall l tss, Forall2 R l tss -> l <> [] -> G l (join tss) /\ G l (join tss ++ [comma]).
Proof.
  intros Gn G1 Gc l tss F. induction F as [|x t l tss Rx F IH]; intros N; [congruence|]. destruct F as [|y u l tss Ry F].
  - cbn [join]. split; [apply G1; exact Rx|]. apply (Gc x t [] []); [exact Rx|exact Gn].
  - destruct (IH ltac:(discriminate)) as (I1 & I2). change (join (t :: u :: tss)) with (t ++ comma :: join (u :: tss)). split; [apply Gc; assumption|]. rewrite <- app_assoc. apply Gc; assumption.
Qed.
Lemma commas_enum its : forall first tss, first_then enum_item first its tss -> g_enum first its (join tss) /\ g_enum first its (join tss ++ [comma]).
Proof.
  induction its as [|x its IH]; intros first tss H; [destruct H|]. destruct tss as [|t tss]; [destruct H|]. destruct H as ((tv & -> & Gv) & F). destruct x as [n v]. cbn [fst snd] in *. destruct F as [|y u l tss Ry F].
  - cbn [join]. split; [apply gn_one; exact Gv|]. apply (gn_comma first n v tv Gv).
  - destruct (IH false (u :: tss) (conj Ry F)) as (I1 & I2). change (join ((TIdent n :: tv) :: u :: tss)) with (TIdent n :: tv ++ comma :: join (u :: tss)). split; [apply gn_cons; assumption|].
    cbn [app]. rewrite <- app_assoc. apply gn_cons; assumption.
Qed.
Lemma commas_bits its : forall first tss, first_then bit_item first its tss -> g_bits first its (join tss) /\ g_bits first its (join tss ++ [comma]).
Proof.
  induction its as [|x its IH]; intros first tss H; [destruct H|]. destruct tss as [|t tss]; [destruct H|]. destruct H as ((tv & -> & Gv) & F). destruct x as [n v]. cbn [fst snd] in *. destruct F as [|y u l tss Ry F].
  - cbn [join]. split; [apply gb_one; exact Gv|]. apply (gb_comma first n v tv Gv).
  - destruct (IH false (u :: tss) (conj Ry F)) as (I1 & I2). change (join ((TIdent n :: tv) :: u :: tss)) with (TIdent n :: tv ++ comma :: join (u :: tss)). split; [apply gb_cons; assumption|].
    cbn [app]. rewrite <- app_assoc. apply gb_cons; assumption.
Qed.
Lemma commas_imports l : l <> [] -> g_imports l (join (map words_import l)) /\ g_imports l (join (map words_import l) ++ [comma]).
Proof.
  intros N. destruct l as [|x l]; [congruence|]. clear N. revert x. induction l as [|y l IH]; intros x.
  - cbn [map join]. split; [apply gim_one|apply gim_comma].
  - destruct (IH y) as (I1 & I2). change (join (map words_import (x :: y :: l))) with (words_import x ++ comma :: join (map words_import (y :: l))). split; [apply gim_cons; exact I1|]. rewrite <- app_assoc. apply gim_cons. exact I2.
Qed.
Theorem C21_trailing_commas :
  (forall es tss, Forall2 g_expr es tss -> es <> [] -> g_args es (join tss) /\ g_args es (join tss ++ [comma])) /\
  (forall is tss, Forall2 g_item is tss -> is <> [] -> g_items is (join tss) /\ g_items is (join tss ++ [comma])) /\
  (forall l tss, Forall2 g_targ l tss -> l <> [] -> g_targs l (join tss) /\ g_targs l (join tss ++ [comma])) /\
  (forall first its tss, first_then enum_item first its tss -> g_enum first its (join tss) /\ g_enum first its (join tss ++ [comma])) /\
  (forall first its tss, first_then bit_item first its tss -> g_bits first its (join tss) /\ g_bits first its (join tss ++ [comma])) /\
  (forall l, l <> [] -> g_imports l (join (map words_import l)) /\ g_imports l (join (map words_import l) ++ [comma])).
Proof.
  split; [apply commas; [apply gs_nil|apply gs_one|intros x t l tl; apply gs_cons]|].
  split; [apply commas; [apply gi_nil|apply gi_one|intros x t l tl; apply gi_cons]|].
  split; [apply commas; [apply gts_nil|apply gts_one|intros x t l tl; apply gts_cons]|].
  split; [intros first its; apply commas_enum|]. split; [intros first its; apply commas_bits|exact commas_imports].
Qed.
Print Assumptions C21_trailing_commas.

Definition sample_text : list Z := bs "type a(x: u8 ? 3,) = container [x] +f { b : u8 = 1 + x * -2 {x == 1 ? true : false} -> gz(1,) {true}, .pad : 3, c: enum u16le { A = 1, B, C = default } [..x] } ; // note
const q : u16[..x] = (a.b[1] :> u16) ; import a, b as c, from ""x"" ; import_ffi z as type ; /* end */".
Example C21_nonvacuous : exists p, parse sample_text = Ok p /\ List.length p = 4%nat /\ ok_program p = true /\ parse_tokens (print_program p) = Ok p.
Proof. eexists. split; [vm_compute; reflexivity|]. split; [reflexivity|]. split; vm_compute; reflexivity. Qed.

(** C21 as stated fails for two kinds of tree and text.
    A field with both a calculated value and flags cannot be written: the flags are read as additions. *)
Theorem C21_flags_after_calculation_refuted :
  (forall ts n args t e fl fls cond xs rest, parse_tokens ts <> Ok (DType n args (AField t (Some e) (fl :: fls) cond xs) :: rest)) /\
  parse (bs "type t = u8 = a +b;") = Ok [DType (bs "t") [] (AField (YScalar {| es_scalar := U8; es_endian := Big |}) (Some (ABin BAdd (id "a") (id "b"))) [] None [])].
Proof.
  split; [|vm_compute; reflexivity]. intros ts n args t e fl fls cond xs rest H. apply parse_iff in H. apply grammar_program in H. cbn in H.
  destruct (forallb ok_targ args), (ok_t t), (ok_e e); cbn in H; discriminate H.
Qed.
Print Assumptions C21_flags_after_calculation_refuted.
(** SPEC.md:90-101 also allows parenthesised types, empty enums and a container holding just a comma; the parser rejects all three. *)
Theorem C21_spec_syntax_refuted : (exists e, parse (bs "type t = (u8);") = Err e) /\ (exists e, parse (bs "type t = enum u8 {};") = Err e) /\ (exists e, parse (bs "type t = container {,};") = Err e).
Proof. split; [|split]; (eexists; vm_compute; reflexivity). Qed.
Print Assumptions C21_spec_syntax_refuted.
