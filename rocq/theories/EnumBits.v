(** Enums and bitfields: semantic conversion and the emitted from/to_repr code.
    semantics/convert/type_/enum_.rs, bitfield.rs; compiler/mod.rs generate_enum,
    generate_bitfield. *)
From Verif Require Export ConstInt.

(** The part of semantics/error.rs used here. *)
Inductive asgerr :=
| EnumVariantRedefinition | EnumDefaultRedefinition | BitfieldFlagRedefinition | InvalidInt
| ConstUnresolved.

(** ast/types/enum_.rs: an item is a default arm, an explicit expression or bare.
    Simplification: an explicit expression is represented by its value in the
    backing scalar (what convert_expr + eval_const_expression give). *)
Inductive eitem := IDefault | IExpr (v : Z) | INone.

(** asg EnumValue; the automatic value is kept as the expression
    [last_explicit + counter] built at enum_.rs:40-55. *)
Inductive evalue := EvDefault | EvLit (v : Z) | EvAuto (base k : Z).

Definition lookup {A} (n : string) (l : list (string * A)) : option A :=
  match find (fun p => String.eqb (fst p) n) l with
  | Some p => Some (snd p)
  | None => None
  end.

(** enum_.rs:9-75.  State: items so far (in order), last explicit value, counter,
    has_default.  [ConstInt::parse(rep, format!("{}", counter))] fails with
    InvalidInt when the counter does not fit rep; [last_defined_item.unwrap()]
    panics when there is no explicit item before. *)
Fixpoint convert_enum_loop (rep : scalar) (items : list (string * evalue)) (last : option Z)
    (counter : Z) (has_default : bool) (todo : list (string * eitem))
  : res asgerr (list (string * evalue)) :=
  match todo with
  | [] => Ok items
  | (name, item) :: todo =>
      match lookup name items with
      | Some _ => Err EnumVariantRedefinition
      | None =>
        if has_default then Err EnumDefaultRedefinition else
        match item with
        | IDefault => convert_enum_loop rep (items ++ [(name, EvDefault)]) last (counter + 1) true todo
        | IExpr v => convert_enum_loop rep (items ++ [(name, EvLit v)]) (Some v) 1 false todo
        | INone =>
            match last with
            | None => Panic
            | Some b =>
                if in_range rep counter
                then convert_enum_loop rep (items ++ [(name, EvAuto b counter)]) last (counter + 1) false todo
                else Err InvalidInt
            end
        end
      end
  end.
Definition convert_enum (rep : scalar) (todo : list (string * eitem)) := convert_enum_loop rep [] None 0 false todo.

(** compiler/mod.rs:483-524 evaluates every value with eval_const_expression;
    the auto expression is [ConstInt + ConstInt] (const_int.rs Add). *)
Definition eval_evalue (chk : bool) (rep : scalar) (v : evalue) : res asgerr (option Z) :=
  match v with
  | EvDefault => Ok None
  | EvLit v => Ok (Some v)
  | EvAuto b k =>
      match ci_add chk (CI rep b) (CI rep k) with
      | Ok (Some c) => Ok (Some (ci_val c))
      | Ok None => Err ConstUnresolved
      | _ => Panic
      end
  end.
Fixpoint eval_enum (chk : bool) (rep : scalar) (items : list (string * evalue))
  : res asgerr (list (string * option Z)) :=
  match items with
  | [] => Ok []
  | (n, v) :: items =>
      let! x := eval_evalue chk rep v in
      let! r := eval_enum chk rep items in
      Ok ((n, x) :: r)
  end.

(** A value of the generated Rust enum: a named variant or the default variant
    carrying its raw value (compiler/mod.rs:494-515). *)
Inductive evariant := VNamed (n : string) | VDefault (n : string) (raw : Z).

(** compiler/mod.rs:497-518,568-: the emitted [match repr]: arms in declaration order; the default
    arm matches everything; the final [_ => Err] otherwise. *)
Fixpoint from_repr (items : list (string * option Z)) (r : Z) : res ioerr evariant :=
  match items with
  | [] => Err EDecode
  | (n, Some v) :: items => if r =? v then Ok (VNamed n) else from_repr items r
  | (n, None) :: _ => Ok (VDefault n r)
  end.

(** compiler/mod.rs:548-559 [to_repr]: the variant's value, or the payload. *)
Definition to_repr (items : list (string * option Z)) (x : evariant) : option Z :=
  match x with
  | VNamed n => match lookup n items with Some (Some v) => Some v | _ => None end
  | VDefault n raw => match lookup n items with Some None => Some raw | _ => None end
  end.

(** compiler/encoder.rs:211-222 EncodeEnum; [None] if the value is not a variant of
    the enum (excluded by Rust's type system). *)
Definition encode_enum (rep : escalar) (items : list (string * option Z)) (x : evariant) : option (list Z) :=
  match to_repr items x with Some v => Some (scalar_bytes rep v) | None => None end.
(** compiler/decoder.rs:251-272 DecodeRepr. *)
Definition decode_enum (rep : escalar) (items : list (string * option Z)) (l : list Z)
  : res ioerr (evariant * list Z) :=
  let! (v, rest) := decode_scalar rep l in
  let! x := from_repr items v in
  Ok (x, rest).

(** ** Bitfields *)

(** bitfield.rs (convert) 95-142 of type_/bitfield.rs: explicit value or
    [last_explicit << counter]. *)
Inductive bvalue := BvLit (v : Z) | BvAuto (base k : Z).
Fixpoint convert_bitfield_loop (rep : scalar) (items : list (string * bvalue)) (last : option Z)
    (counter : Z) (todo : list (string * option Z)) : res asgerr (list (string * bvalue)) :=
  match todo with
  | [] => Ok items
  | (name, item) :: todo =>
      match lookup name items with
      | Some _ => Err BitfieldFlagRedefinition
      | None =>
        match item with
        | Some v => convert_bitfield_loop rep (items ++ [(name, BvLit v)]) (Some v) 1 todo
        | None =>
            match last with
            | None => Panic
            | Some b =>
                if in_range rep counter
                then convert_bitfield_loop rep (items ++ [(name, BvAuto b counter)]) last (counter + 1) todo
                else Err InvalidInt
            end
        end
      end
  end.
Definition convert_bitfield rep todo := convert_bitfield_loop rep [] None 0 todo.

Definition eval_bvalue (chk : bool) (rep : scalar) (v : bvalue) : res asgerr Z :=
  match v with
  | BvLit v => Ok v
  | BvAuto b k =>
      match ci_shl chk (CI rep b) (CI rep k) with
      | Ok (Some c) => Ok (ci_val c)
      | Ok None => Err ConstUnresolved
      | _ => Panic
      end
  end.
Fixpoint eval_bitfield (chk : bool) (rep : scalar) (items : list (string * bvalue))
  : res asgerr (list (string * Z)) :=
  match items with
  | [] => Ok []
  | (n, v) :: items =>
      let! x := eval_bvalue chk rep v in
      let! r := eval_bitfield chk rep items in
      Ok ((n, x) :: r)
  end.

(** compiler/mod.rs:609,628 [all_fields |= value]. *)
Definition all_fields (items : list (string * Z)) : Z :=
  fold_left (fun acc p => Z.lor acc (snd p)) items 0.

(** compiler/mod.rs:667-673 [from_repr]: [(repr & !ALL) != 0] is an error. *)
Definition bf_from_repr (rep : scalar) (items : list (string * Z)) (r : Z) : res ioerr Z :=
  if Z.land r (wrap rep (Z.lnot (all_fields items))) =? 0 then Ok r else Err EDecode.

(** compiler/mod.rs:635-641 getters and setters of one flag. *)
Definition bf_get (flag self : Z) : bool := negb (Z.land self flag =? 0).
Definition bf_set (flag self : Z) : Z := Z.lor self flag.

(** compiler/encoder.rs:223-234 EncodeBitfield writes the raw value. *)
Definition encode_bitfield (rep : escalar) (raw : Z) : list Z := scalar_bytes rep raw.
(** compiler/decoder.rs:251-272 DecodeRepr. *)
Definition decode_bitfield (rep : escalar) (items : list (string * Z)) (l : list Z)
  : res ioerr (Z * list Z) :=
  let! (v, rest) := decode_scalar rep l in
  let! x := bf_from_repr (es_scalar rep) items v in
  Ok (x, rest).
