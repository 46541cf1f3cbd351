(** Typing of constant expressions: specification for C23 and C24. *)
From Verif Require Import Base Scalar ConstInt EnumBits Expr.
Open Scope string_scope. Open Scope Z_scope. Open Scope list_scope.

(** What a constant expression can be: an integer of some type, a bool, a byte string, a variant or flag of a declared type. *)
Inductive kind := KInt (s : scalar) | KBool | KStr | KEnum (d : enumdef) | KBits (d : bitsdef).
(** The integer type behind a kind. *)
Definition rep (k : kind) : option scalar :=
  match k with KInt s => Some s | KEnum d => Some (es_scalar (en_rep d)) | KBits d => Some (es_scalar (bf_rep d)) | _ => None end.
Definition order_op (o : binop) : bool := match o with OLt | OGt | OLte | OGte => true | _ => false end.
Definition equality_op (o : binop) : bool := match o with OEq | ONe => true | _ => false end.
Definition logic_op (o : binop) : bool := match o with OOr | OAnd => true | _ => false end.
Definition integer_op (o : binop) : bool :=
  match o with OBitOr | OBitAnd | OBitXor | OShr | OShl | OShrS | OAdd | OSub | OMul | ODiv | OMod => true | _ => false end.

Inductive typed : expr -> kind -> Prop :=
| t_int c : ci_ok c -> typed (EInt c) (KInt (ci_ty c))
| t_bool b : typed (EBool b) KBool
| t_str b : typed (EStr b) KStr
| t_enum d v z : in_range (es_scalar (en_rep d)) z = true -> typed (EEnum d v z) (KEnum d)
| t_flag d v z : in_range (es_scalar (bf_rep d)) z = true -> typed (EFlag d v z) (KBits d)
| t_const n t v k : typed v k -> typed (EConst n t v) k
| t_cast e k s e' : typed e k -> rep k = Some s -> typed (ECast e (TyScalar e')) (KInt (es_scalar e'))
| t_order o l r k k' s : order_op o = true -> typed l k -> typed r k' -> rep k = Some s -> rep k' = Some s -> typed (EBin o l r) KBool
| t_equality o l r k k' : equality_op o = true -> typed l k -> typed r k' -> typed (EBin o l r) KBool
| t_logic o l r : logic_op o = true -> typed l KBool -> typed r KBool -> typed (EBin o l r) KBool
| t_arith o l r k k' s : integer_op o = true -> typed l k -> typed r k' -> rep k = Some s -> rep k' = Some s -> typed (EBin o l r) k
| t_neg e k s : typed e k -> rep k = Some s -> is_signed s = true -> typed (EUn UNeg e) k
| t_bitnot e k s : typed e k -> rep k = Some s -> typed (EUn UBitNot e) k
| t_not e : typed e KBool -> typed (EUn UNot e) KBool
| t_tern c a b k : typed c KBool -> typed a k -> typed b k -> typed (ETern c a b) k
| t_member e d f z : typed e (KBits d) -> in_range (es_scalar (bf_rep d)) z = true -> typed (EMember e f z) KBool.

(** [v] is a value of kind [k]. *)
Definition kval (k : kind) (v : cval) : Prop :=
  match k, v with
  | KBool, CBool _ => True
  | KStr, CStr _ => True
  | _, CInt c => rep k = Some (ci_ty c) /\ ci_ok c
  | _, _ => False
  end.

(** Rust leaves [a op b], or [- a], undefined in the type [s]. *)
Definition undefined_bin (chk : bool) (o : binop) (s : scalar) (a b : Z) : Prop :=
  match o with
  | OAdd => chk = true /\ in_range s (a + b) = false
  | OSub => chk = true /\ in_range s (a - b) = false
  | OMul => chk = true /\ in_range s (a * b) = false
  | ODiv | OMod => b = 0 \/ in_range s (Z.quot a b) = false
  | OShl | OShr | OShrS => chk = true /\ ~ (0 <= b < bits s)
  | _ => False
  end.
Definition children (e : expr) : list expr :=
  match e with
  | EBin _ l r => [l; r] | EUn _ e => [e] | ECast e _ => [e] | EIndex a i => [a; i] | EConst _ _ v => [v]
  | ETern c a b => [c; a; b] | ECall _ args => args | EMember t _ _ => [t] | _ => []
  end.
(** Somewhere in [e] an operation is undefined on the values of its operands. *)
Inductive faulty (chk : bool) : expr -> Prop :=
| faulty_bin o l r s a b : ceval chk l = Ok (Some (CInt (CI s a))) -> ceval chk r = Ok (Some (CInt (CI s b))) -> undefined_bin chk o s a b -> faulty chk (EBin o l r)
| faulty_neg e s a : ceval chk e = Ok (Some (CInt (CI s a))) -> chk = true -> in_range s (- a) = false -> faulty chk (EUn UNeg e)
| faulty_in e c : In c (children e) -> faulty chk c -> faulty chk e.

(** The typed expressions for which the generator emits Rust that rustc accepts with the same structure: no reference to a constant or flag, no [>>>],
    no operator directly on a cast, operators on integers or bools only. *)
Definition is_cast (e : expr) : bool := match e with ECast _ _ => true | _ => false end.
Inductive emitted : expr -> kind -> Prop :=
| m_int c : ci_ok c -> emitted (EInt c) (KInt (ci_ty c))
| m_bool b : emitted (EBool b) KBool
| m_str b : emitted (EStr b) KStr
| m_enum d v z : in_range (es_scalar (en_rep d)) z = true -> lookup v (en_items d) = Some (Some z) -> emitted (EEnum d v z) (KEnum d)
| m_cast_int e s e' : emitted e (KInt s) -> emitted (ECast e (TyScalar e')) (KInt (es_scalar e'))
| m_cast_enum e d e' : emitted e (KEnum d) -> emitted (ECast e (TyScalar e')) (KInt (es_scalar e'))
| m_order o l r s : order_op o = true -> emitted l (KInt s) -> emitted r (KInt s) -> emitted (EBin o l r) KBool
| m_equality o l r k : equality_op o = true -> (k = KBool \/ exists s, k = KInt s) -> emitted l k -> emitted r k -> emitted (EBin o l r) KBool
| m_logic o l r : logic_op o = true -> emitted l KBool -> emitted r KBool -> emitted (EBin o l r) KBool
| m_arith o l r s : integer_op o = true -> o <> OShrS -> emitted l (KInt s) -> emitted r (KInt s) -> emitted (EBin o l r) (KInt s)
| m_neg e s : emitted e (KInt s) -> is_signed s = true -> is_cast e = false -> emitted (EUn UNeg e) (KInt s)
| m_bitnot e s : emitted e (KInt s) -> is_cast e = false -> emitted (EUn UBitNot e) (KInt s)
| m_not e : emitted e KBool -> emitted (EUn UNot e) KBool
| m_tern c a b k : emitted c KBool -> emitted a k -> emitted b k -> emitted (ETern c a b) k.

(** The compile-time value and the run-time value are the same. *)
Definition same_value (c : cval) (v : val) : Prop :=
  match c, v with
  | CInt c, VInt s z => c = CI s z
  | CInt c, VEnum d x => to_repr (en_items d) x = Some (ci_val c) /\ ci_ty c = es_scalar (en_rep d)
  | CBool b, VBool b' => b = b'
  | CStr s, VArr l => l = map (VInt U8) s
  | _, _ => False
  end.
