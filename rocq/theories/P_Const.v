(** C23, C24: evaluating constant expressions. *)
From Verif Require Import Base Scalar ConstInt EnumBits Expr KindSpec KindFacts Tokens Ast Parse Front Program P_Types ConstSpec ConstFacts ConstProg LowerSpec.
Open Scope string_scope. Open Scope Z_scope. Open Scope list_scope.

(** C23. In an accepted program (with the prelude's foreign types) the value of a constant evaluates, in any build, to a value of the constant's declared
    type, and the value of an enum variant or a bitfield flag to an integer of the declared representation, unless Rust's arithmetic is really undefined in it.
    Partial: only for the expressions that are [operable]; C23_stuck_refuted shows what evaluation does on the others. *)
Lemma constants en n rs k a p : prelude_objects en -> from_ast en n rs k a = Ok p ->
  (forall x c, mget x (p_consts p) = Some c -> operable (c_value c) = true ->
     exists t kd, resolved n p (c_type c) = Ok t /\ kind_of_type en t = Some kd /\ forall chk, evaluates chk (c_value c) kd) /\
  (forall f x rep items v e, In f (p_store p) -> f_type f = FEnum x rep items -> mget v items = Some (Some e) -> operable e = true -> forall chk, evaluates chk e (IsInt (es_scalar rep))) /\
  (forall f x rep items v e, In f (p_store p) -> f_type f = FBits x rep items -> mget v items = Some e -> operable e = true -> forall chk, evaluates chk e (IsInt (es_scalar rep))).
Proof.
  intros O H. destruct (program_sound en n O rs k a p H) as [T C]. split; [|split].
  - intros x c M Op. destruct (C _ _ M) as (t & R & G). destruct (G Op) as (kd & [K _] & _ & E). eauto.
  - intros f x rep items v e I Y M Op. apply In_nth_error in I as [i I]. specialize (T i f I). rewrite Y in T. apply (T v e M Op).
  - intros f x rep items v e I Y M Op. apply In_nth_error in I as [i I]. specialize (T i f I). rewrite Y in T. apply (T v e M Op).
Qed.
Theorem C23_constants_partial : forall en n rs k a p, prelude_objects en -> from_ast en n rs k a = Ok p ->
  (forall x c, mget x (p_consts p) = Some c -> operable (c_value c) = true ->
     exists t kd, resolved n p (c_type c) = Ok t /\ kind_of_type en t = Some kd /\ forall chk, evaluates chk (c_value c) kd) /\
  (forall f x rep items v e, In f (p_store p) -> f_type f = FEnum x rep items -> mget v items = Some (Some e) -> operable e = true -> forall chk, evaluates chk e (IsInt (es_scalar rep))) /\
  (forall f x rep items v e, In f (p_store p) -> f_type f = FBits x rep items -> mget v items = Some e -> operable e = true -> forall chk, evaluates chk e (IsInt (es_scalar rep))).
Proof. exact constants. Qed.
Print Assumptions C23_constants_partial.

(** C23. Accepted, yet evaluation gets stuck (the generator then stops at an [unimplemented!]): a constant of an enum type, [!] on an integer, [+] on bools,
    [?:]. *)
Definition accept (text : string) : R prog := analyse string_env no_resolver 10 2 (bs text).
Lemma elvis_fine chk : ~ overflows chk (FBin BElvis (FInt (CI U8 1)) (FInt (CI U8 2))).
Proof.
  intros H. inversion H; subst; [assumption|]. match goal with I : In _ _, Q : overflows _ _ |- _ => destruct I as [<-|[<-|[]]]; inversion Q; subst; match goal with I' : In _ (subexprs (FInt _)) |- _ => destruct I' end end.
Qed.
Theorem C23_stuck_refuted :
  (exists p c, accept "type e = enum u8 { a = 1, b }; const x: e = 3u8;" = Ok p /\ mget (bs "x") (p_consts p) = Some c /\ forall chk, feval chk (c_value c) = Ok None) /\
  (exists p f rep v, accept "type e = enum u8 { a = (!5u8 == 3u8) ? 1 : 2 };" = Ok p /\ fget p 0 = Some f /\ f_type f = FEnum (bs "e") rep [(bs "a", Some v)] /\ forall chk, feval chk v = Ok None) /\
  (exists p f rep v, accept "type e = enum u8 { a = (true + true == true) ? 1 : 2 };" = Ok p /\ fget p 0 = Some f /\ f_type f = FEnum (bs "e") rep [(bs "a", Some v)] /\ forall chk, feval chk v = Ok None) /\
  (exists p f rep v, accept "type e = enum u8 { a = 1 ?: 2 };" = Ok p /\ fget p 0 = Some f /\ f_type f = FEnum (bs "e") rep [(bs "a", Some v)] /\ forall chk, feval chk v = Panic /\ ~ overflows chk v).
Proof.
  split; [|split; [|split]].
  - eexists _, _. split; [vm_compute; reflexivity|]. split; [vm_compute; reflexivity|]. intros []; vm_compute; reflexivity.
  - eexists _, _, _, _. split; [vm_compute; reflexivity|]. split; [vm_compute; reflexivity|]. split; [vm_compute; reflexivity|]. intros []; vm_compute; reflexivity.
  - eexists _, _, _, _. split; [vm_compute; reflexivity|]. split; [vm_compute; reflexivity|]. split; [vm_compute; reflexivity|]. intros []; vm_compute; reflexivity.
  - eexists _, _, _, _. split; [vm_compute; reflexivity|]. split; [vm_compute; reflexivity|]. split; [vm_compute; reflexivity|]. intros chk. split; [destruct chk; vm_compute; reflexivity|]. apply elvis_fine.
Qed.
Print Assumptions C23_stuck_refuted.

(** A case that meets the hypotheses, with a value that overflows. *)
Example C23_nonvacuous : prelude_objects string_env /\
  match accept "type e = enum u8 { a = 1, b, c = 1 + 2 * 3, d }; const y: u16 = e::c; const z: u8 = y :> u8; const o: u8 = 255 + 1;" with
  | Ok p => map (fun x => (operable (c_value (snd x)), feval true (c_value (snd x)), feval false (c_value (snd x)))) (p_consts p) =
      [(true, Ok (Some (CInt (CI U16 7))), Ok (Some (CInt (CI U16 7)))); (true, Ok (Some (CInt (CI U8 7))), Ok (Some (CInt (CI U8 7)))); (true, Panic, Ok (Some (CInt (CI U8 0))))] /\
      map (fun f => match f_type f with FEnum _ _ items => map (fun i => match snd i with Some e => (operable e, feval true e) | None => (false, Panic) end) items | _ => [] end) (p_store p) =
      [[(true, Ok (Some (CInt (CI U8 1)))); (true, Ok (Some (CInt (CI U8 2)))); (true, Ok (Some (CInt (CI U8 7)))); (true, Ok (Some (CInt (CI U8 8))))]]
  | _ => False
  end.
Proof. split; [intros f from to; unfold e_obj, string_env; destruct (name_eqb f (bs "utf8")); discriminate|]. vm_compute. split; reflexivity. Qed.

(** C24. An expression the generator can render, whose compile-time value is [c], computes the same value at run time, whatever the fields and parameters.
    Partial: [emitted] (KindSpec.v) excludes references to constants and flags, [>>>], operators applied directly to a cast, comparing enum values
    and byte strings; C24_emission_refuted shows that those do disagree. *)
Lemma lowers_eval nm chk e e' : lowers nm chk e e' -> feval chk e = ceval chk e'.
Proof.
  induction 1 as [o l r l' r' _ IHl _ IHr|o e e' _ IH|e e' s _ IH|f v c d z E _|f v c d z E _|c|x t v t' v' _ IH|s|c a b c' a' b' _ IHc _ IHa _ IHb|b]; cbn [feval ceval]; try reflexivity.
  - rewrite IHl, IHr. reflexivity.
  - rewrite IH. destruct o; reflexivity.
  - rewrite IH. destruct (ceval chk e') as [[[]|]| | |]; reflexivity.
  - exact E.
  - exact E.
  - exact IH.
  - rewrite IHc, IHa, IHb. reflexivity.
Qed.
Lemma agrees nm chk e e' k c : lowers nm chk e e' -> emitted e' k -> feval chk e = Ok (Some c) ->
  forall ufn fields inputs fty, exists v, reval chk ufn fields inputs (emit fty e') = Ok v /\ same_value c v.
Proof.
  intros L M E ufn fields inputs fty. rewrite (lowers_eval _ _ _ _ L) in E. destruct (emit_agrees chk ufn fields inputs fty e' k M c E) as (v & R & S & _). eauto.
Qed.
Theorem C24_agrees_partial : forall nm chk e e' k c, lowers nm chk e e' -> emitted e' k -> feval chk e = Ok (Some c) ->
  forall ufn fields inputs fty, exists v, reval chk ufn fields inputs (emit fty e') = Ok v /\ same_value c v.
Proof. exact agrees. Qed.
Print Assumptions C24_agrees_partial.

(** C24. Accepted conditions that hold at compile time and at run time are false, or not even Rust. *)
Definition latin (x : name) : string := string_of_list_ascii (map (fun z => Ascii.ascii_of_nat (Z.to_nat z)) x).
Definition condition (text : string) (e : fexpr) : Prop := exists p i f, accept text = Ok p /\ fget p i = Some f /\ f_cond f = Some e.
Definition dup_enum : enumdef := {| en_name := "e"; en_rep := be U8; en_items := [("a", Some 1); ("b", Some 1)] |}.
Definition one_flag : bitsdef := {| bf_name := "b"; bf_rep := be U8; bf_items := [("f", 1)] |}.
Definition at_run_time (text : string) (e' : expr) (out : res rterr val) : Prop :=
  exists e, condition text e /\ (forall chk, lowers latin chk e e' /\ feval chk e = Ok (Some (CBool true))) /\ forall chk ufn fields inputs fty, reval chk ufn fields inputs (emit fty e') = out.
Ltac cond i := eexists; split; [eexists _, i, _; split; [vm_compute; reflexivity|split; reflexivity]|].
Theorem C24_emission_refuted :
  at_run_time "type t = container { x: u8 { ~(1u8 :> u16) == 65534u16 } };" (EBin OEq (EUn Expr.UBitNot (ECast (EInt (CI U8 1)) (TyScalar (be U16)))) (EInt (CI U16 65534))) (Ok (VBool false)) /\
  at_run_time "type e = enum u8 { a = 1, b = 1 }; type t = container { x: u8 { e::a == e::b } };" (EBin OEq (EEnum dup_enum "a" 1) (EEnum dup_enum "b" 1)) (Ok (VBool false)) /\
  at_run_time "const k: u8 = 1; type t = container { x: u8 { k == 1 } };" (EBin OEq (EConst "k" (TyScalar (be U8)) (EInt (CI U8 1))) (EInt (CI U8 1))) Panic /\
  at_run_time "type t = container { x: u8 { 4u8 >>> 1u8 == 2 } };" (EBin OEq (EBin OShrS (EInt (CI U8 4)) (EInt (CI U8 1))) (EInt (CI U8 2))) Panic /\
  at_run_time "type b = bitfield u8 { f = 1 }; type t = container { x: u8 { b::f == b::f } };" (EBin OEq (EFlag one_flag "f" 1) (EFlag one_flag "f" 1)) Panic.
Proof.
  split; [|split; [|split; [|split]]].
  - cond 1%nat. split; [|intros []; reflexivity]. intros chk. split; [|destruct chk; reflexivity]. apply (l_bin _ _ BEq); [apply (l_un _ _ Ast.UBitNot), l_cast, l_int|apply l_int].
  - cond 2%nat. split; [|intros []; reflexivity]. intros chk. split; [|destruct chk; reflexivity]. apply (l_bin _ _ BEq); [apply (l_enum latin _ _ (bs "a") _ dup_enum 1); reflexivity|apply (l_enum latin _ _ (bs "b") _ dup_enum 1); reflexivity].
  - cond 1%nat. split; [|intros []; reflexivity]. intros chk. split; [|destruct chk; reflexivity]. apply (l_bin _ _ BEq); [apply (l_const latin _ (bs "k")), l_int|apply l_int].
  - cond 1%nat. split; [|intros []; reflexivity]. intros chk. split; [|destruct chk; reflexivity]. apply (l_bin _ _ BEq); [apply (l_bin _ _ BShrSigned); apply l_int|apply l_int].
  - cond 2%nat. split; [|intros []; reflexivity]. intros chk. split; [|destruct chk; reflexivity]. apply (l_bin _ _ BEq); apply (l_flag latin _ _ (bs "f") _ one_flag 1); reflexivity.
Qed.
Print Assumptions C24_emission_refuted.

(** A case that meets the hypotheses. *)
Definition four : enumdef := {| en_name := "e"; en_rep := be U16; en_items := [("a", Some 1); ("b", Some 260)] |}.
Example C24_nonvacuous : exists e e', condition "type e = enum u16 { a = 1, b = 260 }; type t = container { x: u8 { ((e::b :> u8) * 3u8 - 1u8 < 2u8) || (-5i8 == 3i8 - 8) } };" e /\
  lowers latin true e e' /\ emitted e' KindSpec.KBool /\ feval true e = Ok (Some (CBool true)).
Proof.
  eexists _, (EBin OOr (EBin OLt (EBin OSub (EBin OMul (ECast (EEnum four "b" 260) (TyScalar (be U8))) (EInt (CI U8 3))) (EInt (CI U8 1))) (EInt (CI U8 2)))
    (EBin OEq (EUn Expr.UNeg (EInt (CI I8 5))) (EBin OSub (EInt (CI I8 3)) (EInt (CI I8 8))))).
  split; [eexists _, 2%nat, _; split; [vm_compute; reflexivity|split; reflexivity]|].
  split; [|split; [|vm_compute; reflexivity]].
  - apply (l_bin _ _ BOr); [apply (l_bin _ _ BLt); [apply (l_bin _ _ BSub); [apply (l_bin _ _ BMul); [apply l_cast; apply (l_enum latin _ _ (bs "b") _ four 260); reflexivity|apply l_int]|apply l_int]|apply l_int]|].
    apply (l_bin _ _ BEq); [apply (l_un _ _ UNegate), l_int|apply (l_bin _ _ BSub); apply l_int].
  - assert (I : forall s z, in_range s z = true -> emitted (EInt (CI s z)) (KInt s)) by (intros s z R; apply (m_int (CI s z)); apply ok_range; exact R).
    apply m_logic; [reflexivity| |].
    + apply (m_order _ _ _ U8); [reflexivity| |apply I; reflexivity]. apply m_arith; [reflexivity|discriminate| |apply I; reflexivity]. apply m_arith; [reflexivity|discriminate| |apply I; reflexivity].
      apply (m_cast_enum _ four (be U8)). apply m_enum; reflexivity.
    + apply (m_equality _ _ _ (KInt I8)); [reflexivity|right; exists I8; reflexivity|apply m_neg; [apply I; reflexivity|reflexivity|reflexivity]|apply m_arith; [reflexivity|discriminate|apply I; reflexivity|apply I; reflexivity]].
Qed.
