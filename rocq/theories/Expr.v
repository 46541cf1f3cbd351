(** ASG expressions: compile-time evaluation and the Rust expression emitted for
    them.  asg/expression/*.rs, compiler/expr.rs. *)
From Verif Require Export ConstInt EnumBits Prelude.

(** ast/expression/binary.rs [BinaryOp], ast/expression/unary.rs [UnaryOp]. *)
Inductive binop :=
| OLt | OGt | OLte | OGte | OEq | ONe | OOr | OAnd | OBitOr | OBitAnd | OBitXor
| OShr | OShl | OShrS | OAdd | OSub | OMul | ODiv | OMod | OElvis.
Inductive unop := UNeg | UNot | UBitNot.

(** An enum or bitfield definition as compiler/mod.rs:generate_enum/generate_bitfield
    see it: name, representation, evaluated items (EnumBits.v). *)
Record enumdef := { en_name : string; en_rep : escalar; en_items : list (string * option Z) }.
Record bitsdef := { bf_name : string; bf_rep : escalar; bf_items : list (string * Z) }.

(** Types an expression can have (asg/types/mod.rs [Type] without containers;
    array lengths are irrelevant for expressions and dropped). *)
Inductive ety :=
| TyScalar (e : escalar) | TyF32 | TyF64 | TyBool
| TyEnum (d : enumdef) | TyBits (d : bitsdef) | TyForeign (n : string) | TyArr (t : ety).

(** asg/expression/mod.rs:37-53 [Expression].  [EEnum] holds the referenced
    definition, the variant's name and its value; [EConst] the constant's name and
    value expression; [EMember] the flag's name and value; a field reference is its
    name and type. *)
Inductive expr :=
| EBin (op : binop) (l r : expr)
| EUn (op : unop) (e : expr)
| ECast (e : expr) (t : ety)
| EIndex (a i : expr)
| EEnum (d : enumdef) (variant : string) (value : Z)
| EFlag (d : bitsdef) (flag : string) (value : Z)
| EInt (c : cint)
| EConst (n : string) (t : ety) (value : expr)
| EInput (n : string) (t : ety)
| EField (n : string) (t : ety)
| EStr (b : list Z)
| ETern (c a b : expr)
| EBool (b : bool)
| ECall (fn : string) (args : list expr)
| EMember (target : expr) (flag : string) (value : Z).

Fixpoint expr_ind' (P : expr -> Prop)
  (HBin : forall op l r, P l -> P r -> P (EBin op l r))
  (HUn : forall op e, P e -> P (EUn op e))
  (HCast : forall e t, P e -> P (ECast e t))
  (HIndex : forall a i, P a -> P i -> P (EIndex a i))
  (HEnum : forall d v z, P (EEnum d v z))
  (HFlag : forall d v z, P (EFlag d v z))
  (HInt : forall c, P (EInt c))
  (HConst : forall n t v, P v -> P (EConst n t v))
  (HInput : forall n t, P (EInput n t))
  (HField : forall n t, P (EField n t))
  (HStr : forall b, P (EStr b))
  (HTern : forall c a b, P c -> P a -> P b -> P (ETern c a b))
  (HBool : forall b, P (EBool b))
  (HCall : forall f args, Forall P args -> P (ECall f args))
  (HMember : forall t f z, P t -> P (EMember t f z))
  (e : expr) : P e :=
  let rec := expr_ind' P HBin HUn HCast HIndex HEnum HFlag HInt HConst HInput HField HStr HTern HBool HCall HMember in
  match e with
  | EBin op l r => HBin op l r (rec l) (rec r)
  | EUn op e => HUn op e (rec e)
  | ECast e t => HCast e t (rec e)
  | EIndex a i => HIndex a i (rec a) (rec i)
  | EEnum d v z => HEnum d v z
  | EFlag d v z => HFlag d v z
  | EInt c => HInt c
  | EConst n t v => HConst n t v (rec v)
  | EInput n t => HInput n t
  | EField n t => HField n t
  | EStr b => HStr b
  | ETern c a b => HTern c a b (rec c) (rec a) (rec b)
  | EBool b => HBool b
  | ECall f args => HCall f args
      ((fix go l : Forall P l := match l with [] => Forall_nil _ | x :: l => Forall_cons _ (rec x) (go l) end) args)
  | EMember t f z => HMember t f z (rec t)
  end.

(** *** Rust values at run time *)

(** Values of the generated Rust types.  Floats are their bit patterns (no float
    arithmetic is modelled).  [VStr] is a [String] as its scalar values; a byte
    string literal and a [Vec<u8>] are [VArr] of u8.  [VTup] is a newtype struct
    [pub struct T(pub X)] (compiler/mod.rs:157-173), [VStruct] a generated struct,
    [VVariant] a tagged enum's tuple variant and [VVariantS] its struct variant. *)
Inductive val :=
| VInt (s : scalar) (z : Z)
| VBool (b : bool)
| VF32 (bits : Z)
| VF64 (bits : Z)
| VEnum (d : enumdef) (x : evariant)
| VBits (d : bitsdef) (raw : Z)
| VStr (s : list Z)
| VArr (l : list val)
| VOpt (o : option val)
| VTup (v : val)
| VStruct (n : string) (fs : list (string * val))
| VVariant (n d : string) (v : val)
| VVariantS (n d : string) (fs : list (string * val)).

Definition vbytes (b : list Z) : val := VArr (map (VInt U8) b).

(** *** The emitted Rust expression (compiler/expr.rs:253-420)

    [rexpr] is the syntax tree rustc builds from the emitted tokens.  Every binary
    operand, cast operand and array operand is parenthesised by the emitter, but a
    cast itself is emitted as [(inner) as T] without outer parentheses and a unary
    operator as [(op inner)]; since prefix operators bind tighter than [as], a
    unary operator directly over a cast is parsed by rustc as a cast of the unary
    expression.  [remit_un] is that reassociation. *)
Inductive rexpr :=
| RBin (op : binop) (l r : rexpr)
| RUn (op : unop) (e : rexpr)
| RAs (e : rexpr) (t : ety)            (* (e) as T *)
| RRepr (e : rexpr)                    (* (e).to_repr() *)
| RRaw (e : rexpr)                     (* (e).0 *)
| RIndex (a i : rexpr)                 (* (a)[i] *)
| RVariant (d : enumdef) (n : string)
| RFlag (d : bitsdef) (n : string)
| RLit (c : cint)
| RName (n : string)                   (* identifier of a constant *)
| RInput (n : string)
| RField (n : string)
| RBytes (b : list Z)
| RIf (c a b : rexpr)
| RBoolLit (b : bool)
| RCall (fn : string) (args : list rexpr)
| RMember (e : rexpr) (flag : string)
| RInvalid.                            (* token sequence rustc rejects *)

(** asg/expression/mod.rs:55-88 [get_type] (and the per-node files); used by the cast
    emission at expr.rs:315.  [len]-style functions return u64; [fty] gives the
    return type of a function. *)
Section Types.
  Variable fty : string -> ety.
  Definition ty_u64 := TyScalar {| es_scalar := U64; es_endian := Big |}.
  Fixpoint get_type (e : expr) : option ety :=
    match e with
    | EBin (OLt | OGt | OLte | OGte | OEq | ONe | OOr | OAnd) _ _ => Some TyBool
    | EBin _ l r => match get_type l with Some t => Some t | None => get_type r end
    | EUn _ e => get_type e
    | ECast _ t => Some t
    | EIndex a _ => match get_type a with Some (TyArr t) => Some t | _ => None end
    | EEnum d _ _ => Some (TyEnum d)
    | EFlag d _ _ => Some (TyBits d)
    | EInt c => Some (TyScalar {| es_scalar := ci_ty c; es_endian := Big |})
    | EConst _ t _ => Some t
    | EInput _ t => Some t
    | EField _ t => Some t
    | EStr _ => Some (TyArr (TyScalar {| es_scalar := U8; es_endian := Big |}))
    | ETern _ a b => match get_type a with Some t => Some t | None => get_type b end
    | EBool _ => Some TyBool
    | ECall f _ => Some (fty f)
    | EMember t _ _ => match get_type t with Some (TyBits _) => Some TyBool | _ => None end
    end.

  (** expr.rs:301-311: [(#op #inner)]. *)
  Definition remit_un (op : unop) (r : rexpr) : rexpr :=
    match r with
    | RAs e t => RAs (RUn op e) t
    | r => RUn op r
    end.

  (** expr.rs:253-420.  Arguments of a call are emitted by the function's own
      [call]; [blen] is [unimplemented!] (prelude/blen.rs:19-21). *)
  Fixpoint emit (e : expr) : rexpr :=
    match e with
    | EBin OShrS l r => RInvalid                     (* 281: [>>>] is not Rust *)
    | EBin op l r => RBin op (emit l) (emit r)       (* 259-293 *)
    | EUn op e => remit_un op (emit e)               (* 301-311 *)
    | ECast e t =>                                   (* 312-332 *)
        match get_type e with
        | Some (TyEnum _) => RAs (RRepr (emit e)) t
        | Some (TyBits _) => RAs (RRaw (emit e)) t
        | _ => RAs (emit e) t
        end
    | EIndex a i => RIndex (emit a) (emit i)         (* 333-340 *)
    | EEnum d n _ => RVariant d n                    (* 341-347 *)
    | EFlag d n _ => RFlag d n
    | EInt c => RLit c                               (* 348-362 *)
    | EConst n _ _ => RName n                        (* 363-368 *)
    | EInput n _ => RInput n                         (* 369-374 *)
    | EField n _ => RField n                         (* 375 *)
    | EStr b => RBytes b                             (* 376-381 *)
    | ETern c a b => RIf (emit c) (emit a) (emit b)  (* 382-394 *)
    | EBool b => RBoolLit b                          (* 395-399 *)
    | ECall f args => RCall f (map emit args)        (* 400-418 *)
    | EMember t f _ =>                               (* 294-300 *)
        match emit t with
        | RAs _ _ => RInvalid   (* [x as T.flag()] *)
        | r => RMember r f
        end
    end.
End Types.

(** *** Run-time evaluation of the emitted expression (Rust semantics)

    [Panic] covers both a run-time panic and an expression rustc would reject
    (mismatched operand types); [chk] is the overflow-checks profile of the crate
    the code is generated into. *)
Definition rterr := ioerr.
Definition lift_opt {A} (r : res Empty_set (option A)) : res rterr A :=
  match r with
  | Ok (Some a) => Ok a
  | _ => Panic
  end.

Fixpoint val_eqb (a b : val) : option bool :=
  match a, b with
  | VInt s x, VInt t y => if scalar_eqb s t then Some (x =? y) else None
  | VBool x, VBool y => Some (Bool.eqb x y)
  | VEnum d x, VEnum d' y =>
      if String.eqb (en_name d) (en_name d') then
        Some (match x, y with
              | VNamed n, VNamed m => String.eqb n m
              | VDefault n r, VDefault m q => String.eqb n m && (r =? q)
              | _, _ => false
              end)
      else None
  | VBits d x, VBits d' y => if String.eqb (bf_name d) (bf_name d') then Some (x =? y) else None
  | VArr l, VArr l' =>
      (fix go l l' := match l, l' with
       | [], [] => Some true
       | x :: l, y :: l' =>
           match val_eqb x y with
           | Some true => go l l'
           | o => o
           end
       | _, _ => Some false
       end) l l'
  | _, _ => None
  end.

Definition vcmp (a b : val) (f : comparison -> bool) : res rterr val :=
  match a, b with
  | VInt s x, VInt t y => if scalar_eqb s t then Ok (VBool (f (x ?= y))) else Panic
  | _, _ => Panic
  end.
Definition vint2 (f : cint -> cint -> ores) (a b : val) : res rterr val :=
  match a, b with
  | VInt s x, VInt t y => let! c := lift_opt (f (CI s x) (CI t y)) in Ok (VInt (ci_ty c) (ci_val c))
  | _, _ => Panic
  end.
Definition ores_map {A B} (f : A -> B) (r : res rterr A) : res rterr B := let! a := r in Ok (f a).

(** Rust's binary operators on evaluated operands (every operand expression here is
    free of side effects, so && and || are modelled on the left operand's value in
    [reval]). *)
Definition rbin (chk : bool) (op : binop) (a b : val) : res rterr val :=
  match op with
  | OLt => vcmp a b (fun c => match c with Lt => true | _ => false end)
  | OGt => vcmp a b (fun c => match c with Gt => true | _ => false end)
  | OLte => vcmp a b (fun c => match c with Gt => false | _ => true end)
  | OGte => vcmp a b (fun c => match c with Lt => false | _ => true end)
  | OEq => match val_eqb a b with Some r => Ok (VBool r) | None => Panic end
  | ONe => match val_eqb a b with Some r => Ok (VBool (negb r)) | None => Panic end
  | OBitOr => vint2 ci_bitor a b
  | OBitAnd => vint2 ci_bitand a b
  | OBitXor => vint2 ci_bitxor a b
  | OShr => vint2 (ci_shr chk) a b
  | OShl => vint2 (ci_shl chk) a b
  | OAdd => vint2 (ci_add chk) a b
  | OSub => vint2 (ci_sub chk) a b
  | OMul => vint2 (ci_mul chk) a b
  | ODiv => vint2 ci_div a b
  | OMod => vint2 ci_rem a b
  | OElvis => match a with
              | VOpt (Some v) => Ok v
              | VOpt None => Ok b
              | _ => Panic
              end
  | OOr | OAnd | OShrS => Panic
  end.

Definition run (chk : bool) (op : unop) (a : val) : res rterr val :=
  match op, a with
  | UNeg, VInt s x => let! c := lift_opt (ci_neg chk (CI s x)) in Ok (VInt (ci_ty c) (ci_val c))
  | UNot, VBool b => Ok (VBool (negb b))
  | (UNot | UBitNot), VInt s x => let! c := lift_opt (ci_not (CI s x)) in Ok (VInt (ci_ty c) (ci_val c))
  | UBitNot, VBool b => Ok (VBool (negb b))
  | _, _ => Panic
  end.

(** Rust [as]: between integers, and bool to integer.  Casts to the scalar's Rust
    type; endianness is not part of the Rust type (compiler/mod.rs:313). *)
Definition ras (a : val) (t : ety) : res rterr val :=
  match a, t with
  | VInt s x, TyScalar e => Ok (VInt (es_scalar e) (wrap (es_scalar e) x))
  | VBool b, TyScalar e => Ok (VInt (es_scalar e) (Z.b2z b))
  | VBool b, TyBool => Ok (VBool b)
  | _, _ => Panic
  end.

(** prelude/len.rs:6-37: element count of arrays and byte length of strings,
    otherwise the size of the primitive. *)
Definition vlen (v : val) : res rterr val :=
  match v with
  | VArr l => Ok (VInt U64 (Z.of_nat (List.length l)))
  | VStr s => Ok (VInt U64 (Z.of_nat (List.length (utf8_encode s))))
  | VInt s _ => Ok (VInt U64 (Z.of_nat (size s)))
  | VBool _ => Ok (VInt U64 1)
  | VF32 _ => Ok (VInt U64 4)
  | VF64 _ => Ok (VInt U64 8)
  | VEnum d _ => Ok (VInt U64 (Z.of_nat (size (es_scalar (en_rep d)))))
  | VBits d _ => Ok (VInt U64 (Z.of_nat (size (es_scalar (bf_rep d)))))
  | _ => Panic
  end.
Definition vint (v : val) : option Z := match v with VInt _ z => Some z | _ => None end.
Fixpoint vints (l : list val) : option (list Z) :=
  match l with
  | [] => Some []
  | v :: l => match vint v, vints l with Some z, Some r => Some (z :: r) | _, _ => None end
  end.

(** The prelude's functions (prelude/resolver.rs:86-102), and [ufn] for functions
    registered by the user. *)
Definition call_fn (chk : bool) (ufn : string -> list val -> res rterr val) (f : string) (args : list val)
  : res rterr val :=
  if String.eqb f "len" then match args with [v] => vlen v | _ => Panic end
  else if String.eqb f "blen" then Panic
  else if String.eqb f "pad" then
    match args with
    | [VInt U64 p; VInt U64 b] => ores_map (VInt U64) (pad_fn p b)
    | _ => Panic
    end
  else if String.eqb f "bits" then
    match args with [VInt U64 v] => Ok (VInt U8 (bits_fn v)) | _ => Panic end
  else if String.eqb f "sum" then
    match args with
    | [VArr l] => match vints l with Some zs => ores_map (VInt U64) (sum_fn chk zs) | None => Panic end
    | _ => Panic
    end
  else ufn f args.

Section Eval.
  Variable chk : bool.
  Variable ufn : string -> list val -> res rterr val.
  Variable fields : string -> option val.   (* registers of the fields in scope *)
  Variable inputs : string -> option val.   (* the function's parameters *)

  Fixpoint reval (r : rexpr) : res rterr val :=
    match r with
    | RBin OOr l r' =>
        let! a := reval l in
        match a with
        | VBool true => Ok (VBool true)
        | VBool false => let! b := reval r' in match b with VBool b => Ok (VBool b) | _ => Panic end
        | _ => Panic
        end
    | RBin OAnd l r' =>
        let! a := reval l in
        match a with
        | VBool false => Ok (VBool false)
        | VBool true => let! b := reval r' in match b with VBool b => Ok (VBool b) | _ => Panic end
        | _ => Panic
        end
    | RBin op l r' => let! a := reval l in let! b := reval r' in rbin chk op a b
    | RUn op e => let! a := reval e in run chk op a
    | RAs e t => let! a := reval e in ras a t
    | RRepr e => let! a := reval e in
        match a with
        | VEnum d x => match to_repr (en_items d) x with
                       | Some v => Ok (VInt (es_scalar (en_rep d)) v)
                       | None => Panic
                       end
        | _ => Panic
        end
    | RRaw e => let! a := reval e in
        match a with VBits d raw => Ok (VInt (es_scalar (bf_rep d)) raw) | _ => Panic end
    (** [(#array)[#index]] with an index the front end typed u64: rustc only indexes
        slices and vectors by usize, so this never compiles
        (semantics/convert/expression/array_index.rs:15-19). *)
    | RIndex a i => Panic
    | RVariant d n => Ok (VEnum d (VNamed n))
    (** [Enum::flag] for a bitfield flag: the associated constant is upper-cased
        (compiler/mod.rs:613), the reference is not. *)
    | RFlag d n => Panic
    | RLit c => Ok (VInt (ci_ty c) (ci_val c))
    (** constants are never emitted (compiler/mod.rs:145-176 iterates over types only). *)
    | RName n => Panic
    | RInput n => match inputs n with Some v => Ok v | None => Panic end
    | RField n => match fields n with Some v => Ok v | None => Panic end
    | RBytes b => Ok (vbytes b)
    | RIf c a b =>
        let! v := reval c in
        match v with
        | VBool true => reval a
        | VBool false => reval b
        | _ => Panic
        end
    | RBoolLit b => Ok (VBool b)
    | RCall f args =>
        let! vs := (fix go l := match l with
                    | [] => Ok []
                    | x :: l => let! v := reval x in let! vs := go l in Ok (v :: vs)
                    end) args in
        call_fn chk ufn f vs
    | RMember e flag =>
        let! a := reval e in
        match a with
        | VBits d raw => match lookup flag (bf_items d) with
                         | Some v => Ok (VBool (bf_get v raw))
                         | None => Panic
                         end
        | _ => Panic
        end
    | RInvalid => Panic
    end.
End Eval.

(** Return types of the prelude's functions. *)
Definition prelude_fty (n : string) : ety :=
  if String.eqb n "bits" then TyScalar {| es_scalar := U8; es_endian := Big |} else ty_u64.

(** *** Compile-time evaluation (compiler/expr.rs:168-251) *)

(** expr.rs:10-17 [ConstValue]; floats cannot arise (no float literal, and
    [cast_to] yields none from an integer). *)
Inductive cval := CInt (c : cint) | CBool (b : bool) | CStr (b : list Z).

Fixpoint bytes_eqb (a b : list Z) : bool :=
  match a, b with
  | [], [] => true
  | x :: a, y :: b => (x =? y) && bytes_eqb a b
  | _, _ => false
  end.
(** derived PartialEq (expr.rs:10). *)
Definition cval_eqb (a b : cval) : bool :=
  match a, b with
  | CInt x, CInt y => ci_eqb x y
  | CBool x, CBool y => Bool.eqb x y
  | CStr x, CStr y => bytes_eqb x y
  | _, _ => false
  end.
(** expr.rs:19-28. *)
Definition cval_cmp (a b : cval) : option comparison :=
  match a, b with
  | CInt x, CInt y => ci_cmp x y
  | _, _ => None
  end.
Definition cres := res Empty_set (option cval).
Definition cint2 (f : cint -> cint -> ores) (a b : cval) : cres :=
  match a, b with
  | CInt x, CInt y => let! o := f x y in Ok (match o with Some c => Some (CInt c) | None => None end)
  | _, _ => Ok None
  end.
Definition ccmp (f : comparison -> bool) (a b : cval) : cres :=
  Ok (Some (CBool (match cval_cmp a b with Some c => f c | None => false end))).

(** expr.rs:174-197. *)
Definition cbin (chk : bool) (op : binop) (a b : cval) : cres :=
  match op with
  | OLt => ccmp (fun c => match c with Lt => true | _ => false end) a b
  | OGt => ccmp (fun c => match c with Gt => true | _ => false end) a b
  | OLte => ccmp (fun c => match c with Gt => false | _ => true end) a b
  | OGte => ccmp (fun c => match c with Lt => false | _ => true end) a b
  | OEq => Ok (Some (CBool (cval_eqb a b)))
  | ONe => Ok (Some (CBool (negb (cval_eqb a b))))
  | OOr => match a with
           | CBool true => Ok (Some (CBool true))
           | CBool false => match b with CBool b => Ok (Some (CBool b)) | _ => Ok None end
           | _ => Ok None
           end
  | OAnd => match a with
            | CBool false => Ok (Some (CBool false))
            | CBool true => match b with CBool b => Ok (Some (CBool b)) | _ => Ok None end
            | _ => Ok None
            end
  | OBitOr => cint2 ci_bitor a b
  | OBitAnd => cint2 ci_bitand a b
  | OBitXor => cint2 ci_bitxor a b
  | OShr => cint2 (ci_shr chk) a b
  | OShl => cint2 (ci_shl chk) a b
  | OShrS => cint2 (ci_shr chk) a b
  | OAdd => cint2 (ci_add chk) a b
  | OSub => cint2 (ci_sub chk) a b
  | OMul => cint2 (ci_mul chk) a b
  | ODiv => cint2 ci_div a b
  | OMod => cint2 ci_rem a b
  | OElvis => Panic
  end.
Definition cint1 (f : cint -> ores) (a : cval) : cres :=
  match a with
  | CInt x => let! o := f x in Ok (match o with Some c => Some (CInt c) | None => None end)
  | _ => Ok None
  end.
(** expr.rs:141-151 [cast_to]. *)
Definition ccast (a : cval) (t : ety) : option cval :=
  match a, t with
  | CInt c, TyScalar e => Some (CInt (ci_cast c (es_scalar e)))
  | _, _ => None
  end.

Definition obind {A B} (r : res Empty_set (option A)) (f : A -> res Empty_set (option B))
  : res Empty_set (option B) :=
  match r with
  | Ok (Some a) => f a
  | Ok None => Ok None
  | Panic => Panic
  | Hang => Hang
  | Err e => Err e
  end.

(** expr.rs:168-251 [eval_const_expression]. *)
Fixpoint ceval (chk : bool) (e : expr) : cres :=
  match e with
  | EBin op l r => obind (ceval chk l) (fun a => obind (ceval chk r) (fun b => cbin chk op a b))
  | EMember t _ z =>
      obind (ceval chk t) (fun a =>
        (* 201: the flag's own constant, which has the bitfield's type *)
        match a with
        | CInt c =>
            obind (ci_bitand c (CI (ci_ty c) z)) (fun x =>
            obind (ci_sub chk (CI (ci_ty c) z) (CI (ci_ty c) z)) (fun y =>
            Ok (Some (CBool (negb (ci_eqb x y))))))
        | _ => Panic
        end)
  | EUn UNeg e => obind (ceval chk e) (cint1 (ci_neg chk))
  | EUn UNot e => obind (ceval chk e) (fun a => match a with CBool b => Ok (Some (CBool (negb b))) | _ => Ok None end)
  | EUn UBitNot e => obind (ceval chk e) (cint1 ci_not)
  | ECast e t => obind (ceval chk e) (fun a => Ok (ccast a t))
  | EIndex _ _ => Panic
  | EEnum d _ z => Ok (Some (CInt (CI (es_scalar (en_rep d)) z)))
  | EFlag d _ z => Ok (Some (CInt (CI (es_scalar (bf_rep d)) z)))
  | EInt c => Ok (Some (CInt c))
  | EConst _ _ v => ceval chk v
  | EInput _ _ => Panic
  | EField _ _ => Panic
  | EStr b => Ok (Some (CStr b))
  | ETern c a b =>
      obind (ceval chk c) (fun vc => obind (ceval chk a) (fun va => obind (ceval chk b) (fun vb =>
        match vc with
        | CBool true => Ok (Some va)
        | CBool false => Ok (Some vb)
        | _ => Ok None
        end)))
  | EBool b => Ok (Some (CBool b))
  | ECall _ _ => Panic
  end.
