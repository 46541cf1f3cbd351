(** The abstract semantic graph the coders are generated from (asg/types/*.rs,
    asg/field.rs), and the surroundings of generated code. *)
From Verif Require Export Expr.

(** asg/transform.rs TypeTransform: name, optional condition, arguments. *)
Record xuse := { x_name : string; x_cond : option expr; x_args : list expr }.

(** asg/types/array.rs LengthConstraint: [[e]], [[..]], [[.. e]]. *)
Inductive lenc := LFixed (e : expr) | LRest | LTerm (e : expr).

(** asg/field.rs Field without its type; [fa_pad] is is_pad.  A pad's length is the
    [LFixed] length of its array type, as in the code. *)
Record fattr := {
  fa_name : string; fa_calc : option expr; fa_cond : option expr;
  fa_xs : list xuse; fa_pad : bool }.

(** asg/types/mod.rs:36-48 Type.  A reference carries the name of the type
    declaration; an enum or bitfield its evaluated definition. *)
Inductive ty :=
| TScalar (e : escalar) | TF32 | TF64 | TBool
| TEnum (d : enumdef) | TBits (d : bitsdef)
| TForeign (n : string)
| TRef (n : string) (args : list expr)
| TArr (el : ty) (l : lenc)
| TCont (len : option expr) (tagged : bool) (items : list (fattr * ty)).

Fixpoint ty_ind' (P : ty -> Prop)
  (HS : forall e, P (TScalar e)) (H32 : P TF32) (H64 : P TF64) (HB : P TBool)
  (HE : forall d, P (TEnum d)) (HBf : forall d, P (TBits d)) (HF : forall n, P (TForeign n))
  (HR : forall n args, P (TRef n args))
  (HA : forall el l, P el -> P (TArr el l))
  (HC : forall len tagged items, Forall (fun f => P (snd f)) items -> P (TCont len tagged items))
  (t : ty) : P t :=
  match t with
  | TScalar e => HS e | TF32 => H32 | TF64 => H64 | TBool => HB
  | TEnum d => HE d | TBits d => HBf d | TForeign n => HF n | TRef n args => HR n args
  | TArr el l => HA el l (ty_ind' P HS H32 H64 HB HE HBf HF HR HA HC el)
  | TCont len tagged items => HC len tagged items
      ((fix go (l : list (fattr * ty)) : Forall (fun f => P (snd f)) l :=
          match l with
          | [] => Forall_nil _
          | f :: l => Forall_cons f (ty_ind' P HS H32 H64 HB HE HBf HF HR HA HC (snd f)) (go l)
          end) items)
  end.

Definition is_cont (t : ty) : bool := match t with TCont _ _ _ => true | _ => false end.

(** asg/types/container.rs:12-19 flatten_view: the leaves of nested containers in
    order (pads included, containers themselves not). *)
Fixpoint flatten_ty (t : ty) : list (fattr * ty) :=
  match t with
  | TCont _ _ items =>
      (fix go (l : list (fattr * ty)) : list (fattr * ty) :=
         match l with
         | [] => []
         | (a, t') :: l => (if is_cont t' then flatten_ty t' else [(a, t')]) ++ go l
         end) items
  | _ => []
  end.
Definition flatten_field (f : fattr * ty) : list (fattr * ty) :=
  if is_cont (snd f) then flatten_ty (snd f) else [f].
Definition flatten_items (items : list (fattr * ty)) : list (fattr * ty) := flat_map flatten_field items.

Lemma flatten_ty_cont len tg items : flatten_ty (TCont len tg items) = flatten_items items.
Proof.
  unfold flatten_items. cbn. induction items as [|[a t] items IH]; cbn; [reflexivity|].
  rewrite IH. reflexivity.
Qed.

(** A type declaration: its field (always a top-level one, asg/field.rs [toplevel])
    and its parameters with their defaults (asg/field.rs arguments). *)
Record param := { pm_name : string; pm_default : option expr }.
Record decl := { d_attr : fattr; d_ty : ty; d_params : list param }.
Definition program := string -> option decl.

(** asg/types/mod.rs:82-87 Type::resolved: follow references.  A cycle of plain
    references overflows the compiler's stack; here the fuel runs out and the
    reference itself is returned. *)
Fixpoint resolved (p : program) (fuel : nat) (t : ty) : ty :=
  match t, fuel with
  | TRef n _, S fuel => match p n with Some d => resolved p fuel (d_ty d) | None => t end
  | _, _ => t
  end.

(** What generated code is linked with: overflow-checks profile, user functions and
    their types, foreign types, transforms.
    - [w_fenc n args v]: bytes a foreign type's encoding_gen writes; [w_fdec n args l]:
      value and remaining bytes of its decoding_gen.
    - [w_xenc x args l]: what a transform's writer has emitted once all of [l] was
      written to it and it was flushed and dropped; [w_xdec x args l]: plaintext of
      the encoding at the front of [l], and the bytes after it.  Simplification: a
      transform reads its whole encoding when it is created, not on demand.
    - [w_fill n]: how many of the [n] remaining bytes [fill_buf] shows. *)
Record world := {
  w_chk : bool;
  w_fty : string -> ety;
  w_ufn : string -> list val -> res ioerr val;
  w_fenc : string -> list val -> val -> res ioerr (list Z);
  w_fdec : string -> list val -> list Z -> res ioerr (val * list Z);
  w_xenc : string -> list val -> list Z -> res ioerr (list Z);
  w_xdec : string -> list val -> list Z -> res ioerr (list Z * list Z);
  w_fill : nat -> nat }.

(** Evaluation of an emitted expression (compiler/expr.rs:253-420, Expr.v). *)
Definition eval (w : world) (inputs fields : string -> option val) (e : expr) : res ioerr val :=
  reval (w_chk w) (w_ufn w) fields inputs (emit (w_fty w) e).

(** *** Primitive values and their bytes *)

(** coder/mod.rs:31-37 PrimitiveType and its size (49-58). *)
Inductive prim := PBool | PF32 | PF64 | PScalar (e : escalar).
Definition prim_size (p : prim) : nat :=
  match p with PBool => 1 | PF32 => 4 | PF64 => 8 | PScalar e => size (es_scalar e) end.
Definition u32be := {| es_scalar := U32; es_endian := Big |}.
Definition u64be := {| es_scalar := U64; es_endian := Big |}.
Definition u8be := {| es_scalar := U8; es_endian := Big |}.

(** compiler/encoder.rs:235-262 EncodePrimitive.  A value that does not have the
    primitive's Rust type is [Panic] (rustc rejects it). *)
Definition prim_enc (p : prim) (v : val) : res ioerr (list Z) :=
  match p, v with
  | PBool, VBool b => Ok [Z.b2z b]
  | PF32, VF32 x => if in_range U32 x then Ok (scalar_bytes u32be x) else Panic
  | PF64, VF64 x => if in_range U64 x then Ok (scalar_bytes u64be x) else Panic
  | PScalar e, VInt s z =>
      if scalar_eqb s (es_scalar e) && in_range s z then Ok (scalar_bytes e z) else Panic
  | _, _ => Panic
  end.
(** compiler/decoder.rs:273-304 DecodePrimitive on the bytes read; only a scalar type
    can be little-endian. *)
Definition prim_of (p : prim) (l : list Z) : val :=
  match p with
  | PBool => VBool (negb (hd 0 l =? 0))
  | PF32 => VF32 (scalar_of_bytes u32be l)
  | PF64 => VF64 (scalar_of_bytes u64be l)
  | PScalar e => VInt (es_scalar e) (scalar_of_bytes e l)
  end.

(** Enum or bitfield named in DecodeRepr and friends. *)
Inductive repr := RpEnum (d : enumdef) | RpBits (d : bitsdef).
Definition repr_rep (r : repr) : escalar := match r with RpEnum d => en_rep d | RpBits d => bf_rep d end.

Definition enumdef_dec (a b : enumdef) : {a = b} + {a <> b}.
Proof. repeat decide equality. Defined.
Definition bitsdef_dec (a b : bitsdef) : {a = b} + {a <> b}.
Proof. repeat decide equality. Defined.

(** compiler/encoder.rs:205-234 EncodeEnum / EncodeBitfield: representation in the
    declared byte order. *)
Definition repr_enc (r : repr) (v : val) : res ioerr (list Z) :=
  match r, v with
  | RpEnum d, VEnum d' x =>
      if enumdef_dec d d' then
        match to_repr (en_items d) x with
        | Some z => if in_range (es_scalar (en_rep d)) z then Ok (scalar_bytes (en_rep d) z) else Panic
        | None => Panic
        end
      else Panic
  | RpBits d, VBits d' z =>
      if bitsdef_dec d d' then
        if in_range (es_scalar (bf_rep d)) z then Ok (scalar_bytes (bf_rep d) z) else Panic
      else Panic
  | _, _ => Panic
  end.
(** compiler/decoder.rs:251-272 DecodeRepr on the bytes read. *)
Definition repr_of (r : repr) (l : list Z) : res ioerr val :=
  match r with
  | RpEnum d => let! x := from_repr (en_items d) (scalar_of_bytes (en_rep d) l) in Ok (VEnum d x)
  | RpBits d => let! x := bf_from_repr (es_scalar (bf_rep d)) (bf_items d) (scalar_of_bytes (bf_rep d) l) in
                Ok (VBits d x)
  end.

(** std [chunks_exact]: [n] chunks of [k] bytes. *)
Fixpoint chunks (n k : nat) (l : list Z) : list (list Z) :=
  match n with
  | O => []
  | S n => firstn k l :: chunks n k (skipn k l)
  end.
Fixpoint mapM {E A B} (f : A -> res E B) (l : list A) : res E (list B) :=
  match l with
  | [] => Ok []
  | x :: l => let! y := f x in let! ys := mapM f l in Ok (y :: ys)
  end.

(** Which array elements have a bulk representation: coder/decode/array.rs:25-84,
    coder/encode/array.rs:42-77, on the resolved element type. *)
Inductive ekind := KPrim (p : prim) | KRepr (r : repr) | KLoop.
Definition kind_of (t : ty) : ekind :=
  match t with
  | TScalar e => KPrim (PScalar e)
  | TF32 => KPrim PF32 | TF64 => KPrim PF64 | TBool => KPrim PBool
  | TEnum d => KRepr (RpEnum d) | TBits d => KRepr (RpBits d)
  | TForeign _ | TRef _ _ | TArr _ _ | TCont _ _ _ => KLoop
  end.

(** std [Vec::with_capacity], [vec![0; n]]: beyond isize::MAX bytes is a capacity-overflow panic.  Simplification: memory is otherwise unlimited. *)
Definition cap (z : Z) : res ioerr nat := if (0 <=? z) && (z <? 2 ^ 63) then Ok (Z.to_nat z) else Panic.
(** A length used as [len as usize] for an allocation of that many elements (compiler/decoder.rs:381, 505, compiler/encoder.rs:84, 427).  A negative length is a
    huge usize.  Simplifications: elements count as one byte each; a 128-bit length (the front end makes lengths u64) does not wrap. *)
Definition len_of (v : val) : res ioerr nat :=
  match v with
  | VInt _ z => cap z
  | _ => Panic
  end.
(** compiler/decoder.rs:319-321, 354-356: the bytes of [len] elements of [k] bytes.  [t_count * size] overflows a usize: a panic with overflow checks, without
    them the product wraps.  Simplification: a length that is not a u64 (the front end makes them so) is refused. *)
Definition arr_size (chk : bool) (k : nat) (v : val) : res ioerr nat :=
  match v with
  | VInt _ z =>
      let t := z * Z.of_nat k in
      if (z <? 0) || (2 ^ 64 <=? z) || (chk && (2 ^ 64 <=? t)) then Panic else cap (t mod 2 ^ 64)
  | _ => Panic
  end.
Lemma cap_ok z n : cap z = Ok n -> z = Z.of_nat n /\ z < 2 ^ 63.
Proof. unfold cap. destruct (Z.leb_spec 0 z); cbn [andb]; [|discriminate]. destruct (Z.ltb_spec z (2 ^ 63)); [|discriminate]. intros H1. injection H1 as <-. lia. Qed.
Lemma cap_nat n : Z.of_nat n < 2 ^ 63 -> cap (Z.of_nat n) = Ok n.
Proof. intros H. unfold cap. apply Z.ltb_lt in H. rewrite H, Nat2Z.id. destruct (Z.leb_spec 0 (Z.of_nat n)); [reflexivity|lia]. Qed.
Lemma len_of_ok v n : len_of v = Ok n -> exists s, v = VInt s (Z.of_nat n) /\ Z.of_nat n < 2 ^ 63.
Proof. destruct v; try discriminate. cbn [len_of]. intros H. apply cap_ok in H as (-> & H). eauto. Qed.
Lemma len_of_nat s n : Z.of_nat n < 2 ^ 63 -> len_of (VInt s (Z.of_nat n)) = Ok n.
Proof. exact (cap_nat n). Qed.
Lemma arr_size_ok chk k v m : arr_size chk k v = Ok m -> exists s z, v = VInt s z /\ 0 <= z < 2 ^ 64 /\ Z.of_nat m = (z * Z.of_nat k) mod 2 ^ 64 /\ Z.of_nat m < 2 ^ 63 /\ (chk = true -> z * Z.of_nat k < 2 ^ 64).
Proof.
  destruct v; try discriminate. unfold arr_size. destruct (Z.ltb_spec z 0); [discriminate|]. destruct (Z.leb_spec (2 ^ 64) z); [discriminate|]. cbn [orb].
  destruct chk; cbn [andb]; [destruct (Z.leb_spec (2 ^ 64) (z * Z.of_nat k)); [discriminate|]|]; intros E; apply cap_ok in E as (E1 & E2); exists s, z; split; [reflexivity| |reflexivity|]; (split; [lia|]); split; try lia; split; try lia; try discriminate; auto.
Qed.
Lemma arr_size_nat chk k s n : Z.of_nat n < 2 ^ 64 -> Z.of_nat n * Z.of_nat k < 2 ^ 63 -> arr_size chk k (VInt s (Z.of_nat n)) = Ok (n * k)%nat.
Proof.
  intros H1 H2. unfold arr_size. destruct (Z.ltb_spec (Z.of_nat n) 0); [lia|]. destruct (Z.leb_spec (2 ^ 64) (Z.of_nat n)); [lia|]. cbn [orb].
  destruct (Z.leb_spec (2 ^ 64) (Z.of_nat n * Z.of_nat k)); [lia|]. rewrite andb_false_r. rewrite Z.mod_small by lia. rewrite <- Nat2Z.inj_mul in *. apply cap_nat. assumption.
Qed.
(** [len as u64] in [take] (compiler/decoder.rs:146-153). *)
Definition limit_of (v : val) : res ioerr nat :=
  match v with VInt _ z => Ok (Z.to_nat (z mod 2 ^ 64)) | _ => Panic end.
Definition bool_of (v : val) : res ioerr bool := match v with VBool b => Ok b | _ => Panic end.
Definition u8s_of (v : val) : res ioerr (list Z) :=
  match v with
  | VArr l => mapM (fun x => match x with VInt U8 z => Ok z | _ => Panic end) l
  | _ => Panic
  end.

(** Assoc lists. *)
Fixpoint assoc {A} (n : nat) (l : list (nat * A)) : option A :=
  match l with
  | [] => None
  | (m, a) :: l => if Nat.eqb n m then Some a else assoc n l
  end.
Definition of_some {A} (o : option A) : res ioerr A := match o with Some a => Ok a | None => Panic end.

(** Binding of a type's parameters (compiler/mod.rs:203-227): a parameter with a
    default has Rust type [Option<T>] and is re-bound to its payload or to the
    default; a parameter without one is taken as it is. *)
Fixpoint bind_params (w : world) (ps : list param) (args : list val) (inp : list (string * val))
  : res ioerr (list (string * val)) :=
  match ps, args with
  | [], [] => Ok inp
  | {| pm_name := n; pm_default := None |} :: ps, v :: args => bind_params w ps args ((n, v) :: inp)
  | {| pm_name := n; pm_default := Some e |} :: ps, VOpt (Some v) :: args => bind_params w ps args ((n, v) :: inp)
  | {| pm_name := n; pm_default := Some e |} :: ps, VOpt None :: args =>
      let! v := eval w (fun x => lookup x inp) (fun _ => None) e in
      bind_params w ps args ((n, v) :: inp)
  | _, _ => Panic   (* rustc: wrong number or type of arguments *)
  end.
