(** A declarative description of the values of a type, written without reference to any
    reader or writer: which Rust values a user may build for a declaration made of
    scalars, floats, bools, enums, bitfields, foreign types, references (with
    arguments), arrays whose length is an expression, [..]-arrays of scalars, floats,
    enums and bitfields and of other elements that always take some room, terminated byte arrays, nested containers
    (of declared length too, if the contents are declared to be that long), conditional,
    calculated and padding fields, transforms of fields, nested containers, variants and whole types, and
    tagged enums.

    Not covered here: terminated arrays of other elements, length-constrained
    containers whose contents are not declared to have a fixed size, conditional containers, [blen]. *)
From Verif Require Sizes.
From Verif Require Import RtWf.
Open Scope string_scope. Open Scope Z_scope. Open Scope list_scope.

(** The bytes of an array's element, as far as they matter for the limit of isize::MAX bytes in one allocation. *)
Definition elem_bytes (t : ty) : nat :=
  match kind_of t with KPrim pr => prim_size pr | KRepr d => size (es_scalar (repr_rep d)) | KLoop => 1 end.

Section Valid.
  Variable w : world.
  Variable p : program.
  Variable rf : nat.
  Variable g : good.

  (** [inp]: the type's arguments; [fs]: all fields of the enclosing struct. *)
  Definition val_of (inp : string -> option val) (fs : list (string * val)) (e : expr) : res ioerr val :=
    eval w inp (fun n => lookup n fs) e.

  Section Ty.
    Variable rec : string -> list val -> val -> Prop.
    Variable inp : string -> option val.
    Variable fs : list (string * val).

    (** The declaration says that every value takes at least one byte (Sizes.v), looking into some levels of references and knowing some bounds on the foreign types. *)
    Definition takes_room (t : ty) : Prop := exists bf j, Sizes.world_sizes w bf /\ 1 <= fst (Sizes.ty_size p rf bf (Sizes.bounds p rf bf j) t).

    Fixpoint has_ty (t : ty) (v : val) : Prop :=
      match t with
      | TScalar e => exists z, v = VInt (es_scalar e) z /\ in_range (es_scalar e) z = true
      | TF32 => exists x, v = VF32 x /\ in_range U32 x = true
      | TF64 => exists x, v = VF64 x /\ in_range U64 x = true
      | TBool => exists b, v = VBool b
      | TEnum d => exists x z, v = VEnum d x /\ to_repr (en_items d) x = Some z /\ in_range (es_scalar (en_rep d)) z = true
                    /\ from_repr (en_items d) z = Ok x
      | TBits d => exists z, v = VBits d z /\ in_range (es_scalar (bf_rep d)) z = true
                    /\ bf_from_repr (es_scalar (bf_rep d)) (bf_items d) z = Ok z
      | TRef n args =>
          exists vs, mapM (val_of inp fs) args = Ok vs /\
            match foreign_of p n with
            | Some f => exists b, w_fenc w f vs v = Ok b /\ bytes_ok b /\ g_f g f vs v = true
            | None => rec n vs v
            end
      | TArr el (LFixed e) =>
          exists s l, v = VArr l /\ val_of inp fs e = Ok (VInt s (Z.of_nat (List.length l))) /\ Z.of_nat (List.length l) * Z.of_nat (elem_bytes el) < 2 ^ 63
            /\ el <> TBool /\ kind_of (resolved p rf el) = kind_of el /\ Forall (has_ty el) l
      | TArr el LRest => exists l, v = VArr l /\ el <> TBool /\ (kind_of el = KLoop -> takes_room el) /\ kind_of (resolved p rf el) = kind_of el /\ Forall (has_ty el) l
      | TArr el (LTerm e) =>
          exists e' zs ts, el = TScalar e' /\ es_scalar e' = U8 /\ v = VArr (map (VInt U8) zs) /\ val_of inp fs e = Ok (VArr (map (VInt U8) ts)) /\ bytes_ok zs /\ bytes_ok ts
            /\ (forall i, (i < List.length zs)%nat -> firstn (List.length ts) (skipn i (zs ++ ts)) <> ts)
      | _ => False
      end.

    (** The transforms that apply take any bytes, and give bytes. *)
    Definition takes (x : xuse) : Prop :=
      exists vs, mapM (val_of inp fs) (x_args x) = Ok vs /\
        forall b, bytes_ok b -> exists b', w_xenc w (x_name x) vs b = Ok b' /\ bytes_ok b' /\ g_x g (x_name x) vs b = true.
    Definition xs_ok (xs : list xuse) : Prop :=
      Forall (fun x => match x_cond x with
                       | None => takes x
                       | Some e => exists c, val_of inp fs e = Ok (VBool c) /\ (c = true -> takes x)
                       end) xs.

    Definition has_field (a : fattr) (t : ty) : Prop :=
      if fa_pad a then exists el e s z, t = TArr el (LFixed e) /\ val_of inp fs e = Ok (VInt s z) /\ 0 <= z < 2 ^ 63 /\ xs_ok (fa_xs a)
      else exists v, lookup (fa_name a) fs = Some v /\
        match fa_cond a with
        | None => has_ty t v /\ xs_ok (fa_xs a) /\ match fa_calc a with Some e => val_of inp fs e = Ok v | None => True end
        | Some e => exists c, val_of inp fs e = Ok (VBool c) /\
                      (if c then xs_ok (fa_xs a) /\ exists x, v = VOpt (Some x) /\ has_ty t x else v = VOpt None)
        end.

    (** A container of declared length: its declaration says that its contents take exactly that many bytes (Sizes.v). *)
    Definition fits_length (t : ty) : Prop :=
      match t with
      | TCont (Some e) _ _ => exists s z bf j, val_of inp fs e = Ok (VInt s z) /\ 0 <= z < 2 ^ 63 /\ Sizes.world_sizes w bf /\ Sizes.ty_size p rf bf (Sizes.bounds p rf bf j) t = Sizes.exactly z
      | _ => True
      end.
    (** The same for the containers inside [t], with their transforms. *)
    Fixpoint nested_ok (t : ty) : Prop :=
      match t with
      | TCont _ _ items =>
          (fix go (l : list (fattr * ty)) : Prop :=
             match l with
             | [] => True
             | (a, t') :: l => (is_cont t' = true -> xs_ok (fa_xs a) /\ fits_length t') /\ nested_ok t' /\ go l
             end) items
      | _ => True
      end.
  End Ty.

  (** Containers directly nested without condition; padding and
      calculated fields unconditional, without [blen], computed from stored fields only. *)
  Fixpoint plain_cont (stored : list string) (t : ty) : bool :=
    match t with
    | TCont len tg items =>
        negb tg &&
        (fix go (l : list (fattr * ty)) : bool :=
           match l with
           | [] => true
           | (a, t') :: l =>
               negb (fa_pad a && is_some (fa_cond a))
               && match fa_calc a with
                  | None => true
                  | Some e => negb (is_some (fa_cond a)) && negb (is_cont t') && negb (fa_pad a) && subset (fv e) stored
                              && match blen_calls e with Some [] => true | _ => false end
                  end
               && (negb (is_cont t') || (negb (is_some (fa_cond a)) && negb (fa_pad a) && plain_cont stored t'))
               && go l
           end) items
    | _ => true
    end.

  (** The values of the fields of a container. *)
  Definition has_fields (rec : string -> list val -> val -> Prop) (inp : string -> option val) (tg : bool) (items : list (fattr * ty)) (fs : list (string * val)) : Prop :=
    plain_cont (noncalc (flatten_items items)) (TCont None tg items) = true /\ NoDup (leaf_names (flatten_items items)) /\
    map fst fs = leaf_names (flatten_items items) /\ nested_ok inp fs (TCont None tg items) /\ forall a t, In (a, t) (flatten_items items) -> has_field rec inp fs a t.

  (** A tagged enum: the first variant whose condition holds. *)
  Definition has_variant (rec : string -> list val -> val -> Prop) (inp : string -> option val) (nm : string) (items : list (fattr * ty)) (v : val) : Prop :=
    exists pre a t post, items = (pre ++ (a, t) :: post)%list /\
      (forall f, In f pre -> exists e, fa_cond (fst f) = Some e /\ val_of inp [] e = Ok (VBool false)) /\
      match fa_cond a with Some e => val_of inp [] e = Ok (VBool true) | None => True end /\
      match t with
      | TCont len tg sub => fa_xs a = [] /\ len = None /\ exists fs, v = VVariantS nm (fa_name a) fs /\ has_fields rec inp tg sub fs
      | _ => fa_pad a = false /\ xs_ok inp [] (fa_xs a) /\ exists x, v = VVariant nm (fa_name a) x /\ has_ty rec inp [] t x
      end.

  (** [k] bounds the depth of references. *)
  Fixpoint has_decl (k : nat) (n : string) (args : list val) (v : val) : Prop :=
    match k with
    | O => False
    | S k =>
        exists d inp, p n = Some d /\ bind_params w (d_params d) args [] = Ok inp /\
          let inp := fun x => lookup x inp in
          xs_ok inp [] (fa_xs (d_attr d)) /\
          match d_ty d with
          | TCont None true items => has_variant (has_decl k) inp (fa_name (d_attr d)) items v
          | TCont len tg items => exists fs, v = VStruct (fa_name (d_attr d)) fs /\ fits_length inp [] (TCont len tg items) /\ has_fields (has_decl k) inp tg items fs
          | TEnum _ | TBits _ => has_ty (has_decl k) inp [] (d_ty d) v
          | t => exists x, v = VTup x /\ has_ty (has_decl k) inp [] t x
          end
    end.
  Definition valid (n : string) (args : list val) (v : val) : Prop := exists k, has_decl k n args v.
End Valid.
