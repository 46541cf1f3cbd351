(** The data types the compiler generates for a program, and which values they have.
    compiler/mod.rs:145-176 (one definition per declaration), 308-329 (type references),
    331-373 (struct fields), 375-469 (containers). *)
From Verif Require Import Spec RtWf.
Open Scope string_scope. Open Scope Z_scope. Open Scope list_scope.

(** Rust types that occur in generated definitions.  [RTForeign f] is whatever the foreign type's [type_ref] says; [RTNamed n] the generated type of declaration [n]. *)
Inductive rty :=
| RTInt (s : scalar) | RTF32 | RTF64 | RTBool
| RTVec (t : rty) | RTOpt (t : rty) | RTForeign (f : string) | RTNamed (n : string).

(** compiler/mod.rs:308-329 emit_type_ref; [None] is [unimplemented!].  [global_name] (mod.rs:187-189) is the identity. *)
Fixpoint type_ref (p : program) (t : ty) : option rty :=
  match t with
  | TCont _ _ _ | TBits _ => None
  | TEnum d => Some (RTNamed (en_name d))
  | TScalar e => Some (RTInt (es_scalar e))
  | TF32 => Some RTF32 | TF64 => Some RTF64 | TBool => Some RTBool
  | TArr el _ => option_map RTVec (type_ref p el)
  | TForeign f => Some (RTForeign f)
  | TRef n _ =>
      match p n with
      | Some d => match d_ty d with TForeign f => Some (RTForeign f) | _ => Some (RTNamed n) end
      | None => None
      end
  end.

Definition oapp {A} (a b : option (list A)) : option (list A) :=
  match a, b with Some a, Some b => Some (a ++ b) | _, _ => None end.

(** compiler/mod.rs:331-373 generate_container_fields_recur: one field per leaf, in order; [c] is [conditional]. *)
Fixpoint gen_field (p : program) (c : bool) (a : fattr) (t : ty) {struct t} : option (list (string * rty)) :=
  if fa_pad a then Some [] else
  match t with
  | TCont _ _ items =>
      (fix go (l : list (fattr * ty)) : option (list (string * rty)) :=
         match l with
         | [] => Some []
         | f :: l => oapp (gen_field p (c || is_some (fa_cond a)) (fst f) (snd f)) (go l)
         end) items
  | t => match type_ref p t with
         | Some r => Some [(fa_name a, if c || is_some (fa_cond a) then RTOpt r else r)]
         | None => None
         end
  end.
Fixpoint gen_fields (p : program) (c : bool) (items : list (fattr * ty)) : option (list (string * rty)) :=
  match items with
  | [] => Some []
  | f :: l => oapp (gen_field p c (fst f) (snd f)) (gen_fields p c l)
  end.

(** A generated definition: a struct, an enum of tuple ([inl]) and struct ([inr]) variants, a newtype, an enum or bitfield (EnumBits.v), or nothing. *)
Inductive gdef :=
| GStruct (fs : list (string * rty))
| GTagged (vs : list (string * (rty + list (string * rty))))
| GTuple (t : rty)
| GEnum (d : enumdef)
| GBits (d : bitsdef)
| GNone.

(** compiler/mod.rs:383-405: the variants of a tagged enum. *)
Fixpoint gen_variants (p : program) (items : list (fattr * ty)) : option (list (string * (rty + list (string * rty)))) :=
  match items with
  | [] => Some []
  | (a, t) :: l =>
      let v := match t with
               | TCont _ _ sub => option_map inr (gen_fields p false sub)
               | _ => option_map inl (type_ref p t)
               end in
      match v, gen_variants p l with
      | Some v, Some vs => Some ((fa_name a, v) :: vs)
      | _, _ => None
      end
  end.

(** compiler/mod.rs:145-176; [None]: the compiler panics. *)
Definition data_of (p : program) (d : decl) : option gdef :=
  match d_ty d with
  | TForeign _ => Some GNone
  | TCont _ true items => option_map GTagged (gen_variants p items)
  | TCont _ false items => option_map GStruct (gen_fields p false items)
  | TEnum e => Some (GEnum e)
  | TBits b => Some (GBits b)
  | t => option_map (fun r => GTuple (if fa_cond (d_attr d) then RTOpt r else r)) (type_ref p t)
  end.

(** ** The values of a Rust type

    Specification: which values safe Rust code can have at a generated type.  [F f] are the values of foreign type [f]. *)
Section Has.
  Variable p : program.
  Variable F : string -> val -> Prop.

  Inductive has : rty -> val -> Prop :=
  | HInt s z : in_range s z = true -> has (RTInt s) (VInt s z)
  | HF32 x : in_range U32 x = true -> has RTF32 (VF32 x)
  | HF64 x : in_range U64 x = true -> has RTF64 (VF64 x)
  | HBool b : has RTBool (VBool b)
  | HVec t l : (forall v, In v l -> has t v) -> Z.of_nat (List.length l) < 2 ^ 63 -> has (RTVec t) (VArr l)
  | HNone t : has (RTOpt t) (VOpt None)
  | HSome t v : has t v -> has (RTOpt t) (VOpt (Some v))
  | HForeign f v : F f v -> has (RTForeign f) v
  | HStruct n d ts fs : p n = Some d -> data_of p d = Some (GStruct ts) -> has_fields ts fs -> has (RTNamed n) (VStruct n fs)
  | HTuple n d t v : p n = Some d -> data_of p d = Some (GTuple t) -> has t v -> has (RTNamed n) (VTup v)
  | HVariant n d vs k t v : p n = Some d -> data_of p d = Some (GTagged vs) -> In (k, inl t) vs -> has t v -> has (RTNamed n) (VVariant n k v)
  | HVariantS n d vs k ts fs : p n = Some d -> data_of p d = Some (GTagged vs) -> In (k, inr ts) vs -> has_fields ts fs -> has (RTNamed n) (VVariantS n k fs)
  | HEnum n d e x z : p n = Some d -> data_of p d = Some (GEnum e) -> to_repr (en_items e) x = Some z ->
      in_range (es_scalar (en_rep e)) z = true -> has (RTNamed n) (VEnum e x)
  | HBits n d e z : p n = Some d -> data_of p d = Some (GBits e) -> in_range (es_scalar (bf_rep e)) z = true -> has (RTNamed n) (VBits e z)
  with has_fields : list (string * rty) -> list (string * val) -> Prop :=
  | HFnil : has_fields [] []
  | HFcons n t ts v vs : has t v -> has_fields ts vs -> has_fields ((n, t) :: ts) ((n, v) :: vs).
End Has.

(** ** The programs whose readers produce values of the generated types

    (For the others see the _refuted theorems.)  Arrays: the element type is read in bulk only if the generated element type is the bulk's; a condition applies once. *)
Section Wf.
  Variable p : program.
  Variable rf : nat.
  Definition bulk_ok (el : ty) : bool :=
    match kind_of (resolved p rf el) with
    | KLoop => true
    | KPrim _ => match kind_of el with KPrim _ => true | _ => false end
    | KRepr _ =>
        match el with
        | TRef n _ => match p n with Some d => match d_ty d with TEnum _ | TBits _ => true | _ => false end | None => false end
        | _ => false
        end
    end.
  Fixpoint data_ty (t : ty) : bool :=
    match t with
    | TScalar _ | TF32 | TF64 | TBool | TForeign _ => true
    | TEnum _ | TBits _ | TCont _ _ _ => false
    | TRef n _ => is_some (p n)
    | TArr el _ => data_ty el && bulk_ok el
    end.
  Fixpoint data_field (c : bool) (a : fattr) (t : ty) {struct t} : bool :=
    if fa_pad a then negb (is_cont t) else
    negb (c && is_some (fa_cond a)) &&
    match t with
    | TCont _ _ items => forallb (fun f => data_field (c || is_some (fa_cond a)) (fst f) (snd f)) items
    | t => data_ty t
    end.
  Fixpoint names_once {A} (l : list (string * A)) : bool :=
    match l with [] => true | (n, _) :: l => negb (is_some (lookup n l)) && names_once l end.
  Definition data_wf (n : string) (d : decl) : bool :=
    String.eqb (fa_name (d_attr d)) n && negb (is_some (fa_cond (d_attr d))) &&
    match d_ty d with
    | TForeign _ | TBits _ => true
    | TEnum e => names_once (en_items e)
    | TCont _ false items => forallb (fun f => data_field false (fst f) (snd f)) items
    | TCont _ true items => forallb (fun f =>
        match snd f with
        | TCont _ _ sub => negb (fa_pad (fst f)) && forallb (fun f => data_field false (fst f) (snd f)) sub
        | t => data_ty t
        end) items
    | t => data_ty t
    end.
End Wf.
