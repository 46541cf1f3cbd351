(** Compile-time evaluation of the analysed expressions (compiler/expr.rs:168-251) and when it is well defined: for C23. *)
From Verif Require Import Base Scalar ConstInt EnumBits Expr KindSpec Tokens Ast Parse Front.
Open Scope string_scope. Open Scope Z_scope. Open Scope list_scope.

(** ** The evaluator *)
(** The operators of compiler/expr.rs:174-197, named as in Expr.v. *)
Definition bop (o : Ast.binop) : Expr.binop :=
  match o with
  | BLt => OLt | BGt => OGt | BLte => OLte | BGte => OGte | BEq => OEq | BNe => ONe | BOr => OOr | BAnd => OAnd | BBitOr => OBitOr | BBitAnd => OBitAnd
  | BBitXor => OBitXor | BShr => OShr | BShl => OShl | BShrSigned => OShrS | BAdd => OAdd | BSub => OSub | BMul => OMul | BDiv => ODiv | BMod => OMod | BElvis => OElvis
  end.
(** compiler/expr.rs:141-151 ConstValue::cast_to: the target is matched without resolving references.  No float can arise (there is no float literal). *)
Definition fcast (a : cval) (t : fty) : option cval :=
  match a, t with CInt c, FScalar e => Some (CInt (ci_cast c (es_scalar e))) | _, _ => None end.
(** compiler/expr.rs:168-251 eval_const_expression: [Ok None] is its [None], [Panic] both an [unimplemented!] and a panic of Rust's own arithmetic;
    [chk] says whether the compiler was built with overflow checks. *)
Fixpoint feval (chk : bool) (e : fexpr) : cres :=
  match e with
  | FBin o l r => obind (feval chk l) (fun a => obind (feval chk r) (fun b => cbin chk (bop o) a b))
  | FUn o e => obind (feval chk e) (fun a =>
      match o with
      | UNegate => cint1 (ci_neg chk) a
      | UNot => match a with CBool b => Ok (Some (CBool (negb b))) | _ => Ok None end
      | UBitNot => cint1 ci_not a
      end)
  | FCast e t => obind (feval chk e) (fun a => Ok (fcast a t))
  | FIndex _ _ => Panic
  | FAccess _ _ c => feval chk c
  | FInt c => Ok (Some (CInt c))
  | FConst _ _ v => feval chk v
  | FInput _ _ | FField _ => Panic
  | FStr s => Ok (Some (CStr s))
  | FTern c a b => obind (feval chk c) (fun vc => obind (feval chk a) (fun va => obind (feval chk b) (fun vb =>
      match vc with CBool true => Ok (Some va) | CBool false => Ok (Some vb) | _ => Ok None end)))
  | FBoolean b => Ok (Some (CBool b))
  | FCall _ _ => Panic
  | FMember e _ c => obind (feval chk e) (fun a => obind (feval chk c) (fun m =>
      match a, m with
      | CInt a, CInt m => obind (ci_bitand a m) (fun x => obind (ci_sub chk m m) (fun y => Ok (Some (CBool (negb (ci_eqb x y))))))
      | _, _ => Panic
      end))
  end.

(** ** Kinds of values and of types *)
Inductive vkind := IsInt (s : scalar) | IsBool | IsStr.
Definition kind_of_value (v : cval) : vkind := match v with CInt c => IsInt (ci_ty c) | CBool _ => IsBool | CStr _ => IsStr end.
(** The values of a resolved type: an enum, a bitfield or a variable-length integer is represented by an integer. *)
Definition kind_of_type (en : env) (t : fty) : option vkind :=
  match t with
  | FScalar e | FEnum _ e _ | FBits _ e _ => Some (IsInt (es_scalar e))
  | FBool => Some IsBool
  | FArr _ _ _ => Some IsStr
  | FForeign f => match e_obj en f with FoVar s => Some (IsInt s) | FoArr _ => Some IsStr | FoUser _ _ => None end
  | _ => None
  end.
(** Only the prelude's foreign types. *)
Definition prelude_objects (en : env) : Prop := forall f from to, e_obj en f <> FoUser from to.

(** Rust's arithmetic is undefined somewhere in [e]: overflow (in a checked build), division by zero, an oversized shift. *)
Definition subexprs (e : fexpr) : list fexpr :=
  match e with
  | FBin _ l r => [l; r] | FUn _ e | FCast e _ | FAccess _ _ e | FConst _ _ e => [e] | FTern c a b => [c; a; b] | FMember e _ c => [e; c]
  | _ => []
  end.
Inductive overflows (chk : bool) : fexpr -> Prop :=
| over_bin o l r s a b : feval chk l = Ok (Some (CInt (CI s a))) -> feval chk r = Ok (Some (CInt (CI s b))) -> undefined_bin chk (bop o) s a b -> overflows chk (FBin o l r)
| over_neg e s a : feval chk e = Ok (Some (CInt (CI s a))) -> chk = true -> in_range s (- a) = false -> overflows chk (FUn UNegate e)
| over_in e c : In c (subexprs e) -> overflows chk c -> overflows chk e.
(** Evaluation ends with a value of kind [k], or in an arithmetic panic that the expression really contains. *)
Definition evaluates (chk : bool) (e : fexpr) (k : vkind) : Prop :=
  (exists v, feval chk e = Ok (Some v) /\ kind_of_value v = k /\ match v with CInt c => ci_ok c | _ => True end) \/ (feval chk e = Panic /\ overflows chk e).

(** ** The expressions of which evaluation is proved safe *)
(** The kind an expression shows, looking through names to the values behind them. *)
Fixpoint shown (e : fexpr) : option vkind :=
  match e with
  | FBin o l _ => if is_bool_op o then Some IsBool else shown l
  | FUn UNot _ => Some IsBool
  | FUn _ e => shown e
  | FCast _ (FScalar s) => Some (IsInt (es_scalar s))
  | FAccess _ _ c | FConst _ _ c => shown c
  | FInt c => Some (IsInt (ci_ty c))
  | FStr _ => Some IsStr
  | FTern _ a _ => shown a
  | FBoolean _ | FMember _ _ _ => Some IsBool
  | _ => None
  end.
Definition vkind_eqb (a b : option vkind) : bool :=
  match a, b with Some (IsInt s), Some (IsInt t) => scalar_eqb s t | Some IsBool, Some IsBool | Some IsStr, Some IsStr | None, None => true | _, _ => false end.
(** Restrictions (C23_stuck_refuted shows what happens without them): no field, parameter, call, index or [?:]; casts, also implicit ones, only to
    integer types; arithmetic on integers, [-] on signed ones, [!] on bools; both branches of a conditional of one kind. *)
Fixpoint operable (e : fexpr) : bool :=
  match e with
  | FBin BElvis _ _ => false
  | FBin o l r => operable l && operable r && (is_bool_op o || match shown l with Some (IsInt _) => true | _ => false end)
  | FUn UNegate e => operable e && match shown e with Some (IsInt s) => is_signed s | _ => false end
  | FUn UNot e => operable e && vkind_eqb (shown e) (Some IsBool)
  | FUn UBitNot e => operable e && match shown e with Some (IsInt _) => true | _ => false end
  | FCast e t => operable e && match t with FScalar _ => true | _ => false end
  | FAccess _ _ c | FConst _ _ c => operable c
  | FInt _ | FStr _ | FBoolean _ => true
  | FTern c a b => operable c && operable a && operable b && vkind_eqb (shown a) (shown b)
  | FMember e _ c => operable e && operable c
  | FIndex _ _ | FInput _ _ | FField _ | FCall _ _ => false
  end.
