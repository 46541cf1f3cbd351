(** C30: the generated code is well scoped.  ScopeSpec.v says what that means: Rust's rules for local variables, and the names a declaration may mention where. *)
From Verif Require Import Base Scalar EnumBits Expr Asg Gen Decode Encode Spec EncWf ScopeSpec ScopeDec ScopeEnc World Sample.
From Verif Require Import Tokens Ast Front Program P_Types.
Open Scope string_scope. Open Scope Z_scope. Open Scope list_scope.

(** Every decoder: each value and stream it uses is in scope where it is used, and none is defined twice, provided the declaration's expressions mention only
    fields decoded before them.  (The full claim, for every accepted declaration, is false: see [C30_sibling_variant_refuted].) *)
Theorem C30_decoder_scoped_partial : forall p fuel d code, dec_names_ok d = true -> dec_code p fuel d = Some code -> dec_scoped code.
Proof. exact decoder_scoped. Qed.
Print Assumptions C30_decoder_scoped_partial.
(** Every encoder, likewise; a field that waits for the length of a later container may only be mentioned after that container (false without: [C30_early_length_refuted]),
    and nothing waits for a conditional one (false without: [C30_conditional_length_refuted]). *)
Theorem C30_encoder_scoped_partial : forall p fuel d code, enc_names_ok d = true -> enc_code p fuel d = Some code -> enc_scoped code.
Proof. exact enc_scoped_ok. Qed.
Print Assumptions C30_encoder_scoped_partial.

(** prelude/blen.rs: [blen] takes any value and returns a u64. *)
Definition blen_resolver : resolver := {| r_prelude := [(bs "blen", {| fn_params := [{| fp_type := None; fp_optional := false |}]; fn_ret := FScalar (Sample.es U64 Big) |})];
  r_type := fun _ => Ok None; r_xform := fun x => Ok None; r_func := fun _ => Ok None; r_norm := fun x => Ok x; r_load := fun _ => Ok None |}.
Definition accepted (text : string) : Prop := exists p, analyse string_env blen_resolver 10 2 (bs text) = Ok p.
Lemma accepts text : (match analyse string_env blen_resolver 10 2 (bs text) with Ok _ => true | _ => false end) = true -> accepted text.
Proof. unfold accepted. destruct (analyse _ _ _ _ _) as [p|e| |]; try discriminate. intros _. exists p. reflexivity. Qed.
Lemma dec_bad p d : (match dec_code p 5 d with Some c => match dscopes c {| sr := []; ss := [] |} with None => true | _ => false end | None => false end) = true ->
  exists code, dec_code p 5 d = Some code /\ ~ dec_scoped code.
Proof. destruct (dec_code p 5 d) as [c|]; [|discriminate]. intros H. exists c. split; [reflexivity|]. intros [s E]. rewrite E in H. discriminate H. Qed.
Lemma enc_bad p d : (match enc_code p 5 d with Some c => match escopes false c ({| sr := [0%nat]; ss := [] |}, []) with None => true | _ => false end | None => false end) = true ->
  exists code, enc_code p 5 d = Some code /\ ~ enc_scoped code.
Proof. destruct (enc_code p 5 d) as [c|]; [|discriminate]. intros H. exists c. split; [reflexivity|]. intros [s E]. rewrite E in H. discriminate H. Qed.
(** A variant's condition may mention another variant: accepted, but neither the reader nor the writer has such a variable. *)
Definition sibling : decl := {| d_attr := fld "t"; d_params := [];
  d_ty := TCont None true [(cond "a" (EBin OEq (lit8 1) (lit8 2)), Sample.be U8); (cond "b" (EBin OEq (EField "a" ty_u8) (lit8 1)), Sample.be U16)] |}.
Theorem C30_sibling_variant_refuted :
  accepted "type t = container +tagged_enum { a: u8 { 1u8 == 2u8 }, b: u16 { a == 1 } };" /\
  forall p, (exists code, dec_code p 5 sibling = Some code /\ ~ dec_scoped code) /\ (exists code, enc_code p 5 sibling = Some code /\ ~ enc_scoped code).
Proof.
  split; [apply accepts; vm_compute; reflexivity|]. intros p. split; [apply dec_bad|apply enc_bad]; vm_compute; reflexivity.
Qed.
Print Assumptions C30_sibling_variant_refuted.
(** A length taken of a container with a condition: the writer uses the variable for that length outside the block that defines it. *)
Definition cond_body : decl := {| d_attr := fld "t"; d_params := [];
  d_ty := TCont None false [(calc "l" (ECast (ECall "blen" [EField "c" ty_u8]) ty_u64), Sample.be U64);
    (cond "c" (EBool true), TCont (Some (EField "l" ty_u64)) false [(fld "x", Sample.be U8)])] |}.
Theorem C30_conditional_length_refuted :
  accepted "type t = container { l: u64 = blen(c) :> u64, c: container [l] { x: u8 } { true } };" /\
  forall p, (exists code, enc_code p 5 cond_body = Some code /\ ~ enc_scoped code).
Proof. split; [apply accepts; vm_compute; reflexivity|]. intros p. apply enc_bad. vm_compute. reflexivity. Qed.
Print Assumptions C30_conditional_length_refuted.
(** The field that holds a container's length, mentioned inside that container: the writer reads it before it has it. *)
Definition early_length : decl := {| d_attr := fld "t"; d_params := [];
  d_ty := TCont None false [(calc "l" (ECast (ECall "blen" [EField "c" ty_u8]) ty_u64), Sample.be U64);
    (fld "c", TCont (Some (EField "l" ty_u64)) false [(fld "x", TArr (Sample.be U8) (LFixed (EField "l" ty_u64)))])] |}.
Theorem C30_early_length_refuted :
  accepted "type t = container { l: u64 = blen(c) :> u64, c: container [l] { x: u8[l] } };" /\
  forall p, (exists code, enc_code p 5 early_length = Some code /\ ~ enc_scoped code).
Proof. split; [apply accepts; vm_compute; reflexivity|]. intros p. apply enc_bad. vm_compute. reflexivity. Qed.
Print Assumptions C30_early_length_refuted.

(** The sample program meets the hypotheses. *)
Example C30_nonvacuous : forallb (fun d => dec_names_ok (snd d) && enc_names_ok (snd d)) sample_list = true /\
  forallb (fun d => match dec_code sample 20 (snd d), enc_code sample 20 (snd d) with Some _, Some _ => true | _, _ => false end) sample_list = true.
Proof. split; vm_compute; reflexivity. Qed.
