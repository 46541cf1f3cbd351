(** Property C66: constants mean their values. *)
From Verif Require Import DecRef EncRef RtWf World Sample P_Coder P_Lengths P_Safe.
From Coq Require Import Lia.
Open Scope string_scope. Open Scope Z_scope. Open Scope list_scope.

(** An expression with the definitions of its constants written in place of their names. *)
Fixpoint written_out (e : expr) : expr :=
  match e with
  | EConst _ _ v => written_out v
  | EBin op l r => EBin op (written_out l) (written_out r)
  | EUn op e => EUn op (written_out e)
  | ECast e t => ECast (written_out e) t
  | EIndex a i => EIndex (written_out a) (written_out i)
  | ETern c a b => ETern (written_out c) (written_out a) (written_out b)
  | ECall f args => ECall f (map written_out args)
  | EMember t f z => EMember (written_out t) f z
  | EEnum _ _ _ | EFlag _ _ _ | EInt _ | EInput _ _ | EField _ _ | EStr _ | EBool _ => e
  end.
(** Whether a constant's name is written in it. *)
Fixpoint names_constant (e : expr) : bool :=
  match e with
  | EConst _ _ _ => true
  | EBin _ l r | EIndex l r => names_constant l || names_constant r
  | EUn _ e | ECast e _ | EMember e _ _ => names_constant e
  | ETern c a b => names_constant c || names_constant a || names_constant b
  | ECall _ args => existsb names_constant args
  | EEnum _ _ _ | EFlag _ _ _ | EInt _ | EInput _ _ | EField _ _ | EStr _ | EBool _ => false
  end.
Lemma written_out_names e : names_constant (written_out e) = false.
Proof.
  induction e using expr_ind'; cbn [written_out names_constant]; try reflexivity; try assumption; try (apply orb_false_iff; split; assumption).
  - rewrite IHe1, IHe2, IHe3. reflexivity.
  - induction H as [|x l Hx _ IH]; [reflexivity|]. cbn [map existsb]. rewrite Hx. exact IH.
Qed.

(** C66, what is computed while compiling (the values of constants, enum variants and flags): a constant means its definition. *)
Theorem C66_compile_time : forall chk e, names_constant (written_out e) = false /\ ceval chk (written_out e) = ceval chk e.
Proof.
  intros chk e. split; [apply written_out_names|]. induction e using expr_ind'; cbn [written_out ceval]; try reflexivity; try assumption.
  - rewrite IHe1, IHe2. reflexivity.
  - destruct op; rewrite IHe; reflexivity.
  - rewrite IHe. reflexivity.
  - rewrite IHe1, IHe2, IHe3. reflexivity.
  - rewrite IHe. reflexivity.
Qed.
Print Assumptions C66_compile_time.

(** C66 does not hold of what the generated code computes: the generated code writes the constant's name, and defines no such name.  A specification that uses a constant and the same specification with its value written instead: both are accepted, one can be compiled and reads its messages, the other cannot. *)
Definition named_text : string := "const magic: u8 = 7u8; type msg = container { tag: u8, x: u8 { tag == magic } };".
Definition literal_text : string := "type msg = container { tag: u8, x: u8 { tag == 7u8 } };".
Theorem C66_generated_refuted :
  prog_ok (program_of named_text) 20 (prelude_marks []) = true /\ prog_ok (program_of literal_text) 20 (prelude_marks []) = true /\ List.length (program_of named_text) = 1%nat /\
  (forall k t b rest, decode prelude_world (prog (program_of named_text)) 20 (S k) "msg" [] (t :: b) <> Ok rest) /\
  (forall k b, decode prelude_world (prog (program_of literal_text)) 20 (S k) "msg" [] (7 :: 1 :: b) = Ok (VStruct "msg" [("tag", VInt U8 7); ("x", VOpt (Some (VInt U8 1)))], b)).
Proof.
  assert (O1 : prog_ok (program_of named_text) 20 (prelude_marks []) = true) by (vm_compute; reflexivity).
  assert (O2 : prog_ok (program_of literal_text) 20 (prelude_marks []) = true) by (vm_compute; reflexivity).
  split; [exact O1|]. split; [exact O2|]. split; [vm_compute; reflexivity|].
  pose proof (proj1 (proj2 (prog_ok_compiles _ _ _ O1))) as D1. pose proof (proj1 (proj2 (prog_ok_compiles _ _ _ O2))) as D2. split.
  - intros k t b [v rest] E. rewrite (proj1 (decode_refines _ _ 20 prelude_world_suffixing D1 _ _ _ _)) in E. revert E. set (p := prog (program_of named_text)). cbn [sdecode]. set (d := p "msg"). vm_compute in d. subst d. cbn [of_some bind d_params bind_params].
    generalize (sdecode prelude_world p 20 k). intros rec. unfold sd_top. cbn [d_attr fld fa_xs rev d_ty map]. cbn. discriminate.
  - intros k b. rewrite (proj1 (decode_refines _ _ 20 prelude_world_suffixing D2 _ _ _ _)). set (p := prog (program_of literal_text)). cbn [sdecode]. set (d := p "msg"). vm_compute in d. subst d. cbn [of_some bind d_params bind_params].
    generalize (sdecode prelude_world p 20 k). intros rec. unfold sd_top. cbn [d_attr fld fa_xs rev d_ty map]. cbn. reflexivity.
Qed.
Print Assumptions C66_generated_refuted.

(** In declarations, constants do mean their values: these two specifications are the same program. *)
Definition enum_named : string := "const base: u8 = 2u8 + 1u8; const width: u8 = base * 2u8; type kind = enum u8 { a = base, b, c = width }; type msg = container { k: kind };".
Definition enum_literal : string := "type kind = enum u8 { a = 3u8, b, c = 6u8 }; type msg = container { k: kind };".
Example C66_nonvacuous :
  (exists l, compiled enum_named = Some l /\ compiled enum_literal = Some l /\ List.length l = 2%nat) /\
  let e := EBin OAdd (EConst "base" (TyScalar u8be) (EBin OMul (EInt (CI U8 3)) (EConst "one" (TyScalar u8be) (EInt (CI U8 1))))) (EInt (CI U8 4)) in
  names_constant e = true /\ ceval true (written_out e) = Ok (Some (CInt (CI U8 7))).
Proof.
  split; [exists (program_of enum_literal); repeat split; vm_compute; reflexivity|]. split; reflexivity.
Qed.
Print Assumptions C66_nonvacuous.
