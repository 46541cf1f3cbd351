(** Semantic analysis: the typed program (asg/) and its construction from the syntax
    tree (semantics/).  All paths are relative to protospec-build/src.

    Shared mutable nodes ([Arc<Field>] with [RefCell] contents) are numbers into a store.
    Source positions are dropped.  The compiler's recursion over types can run for ever
    (recursive types); [n] bounds its depth and [Hang] means that the depth was not enough. *)
From Verif Require Import Base Scalar ConstInt ConstIntFacts Tokens Ast Parse.
Open Scope list_scope.

(** ** The typed program *)

(** asg/types/mod.rs:21-33 Type, asg/expression/mod.rs:37-53 Expression.
    - a reference holds the number of its target field and the arguments (type_ref.rs);
    - a container holds its length, its items by name as field numbers, and is_enum (container.rs);
    - an enum or bitfield holds its name, representation and the value expressions of its items,
      [None] for the default variant (enum_.rs, bitfield.rs); the item constants' own type is the representation;
    - a constant or parameter is immutable and held by value (const_declaration.rs, input.rs);
    - a foreign type or function is held by name (foreign.rs:17-19 and function.rs:16-20 compare names). *)
Inductive fty :=
| FScalar (e : escalar) | FF32 | FF64 | FBool
| FEnum (n : name) (rep : escalar) (items : list (name * option fexpr))
| FBits (n : name) (rep : escalar) (items : list (name * fexpr))
| FForeign (n : name)
| FRef (target : nat) (args : list fexpr)
| FArr (el : fty) (expandable : bool) (len : option fexpr)
| FCont (len : option fexpr) (items : list (name * nat)) (tagged : bool)
with fexpr :=
| FBin (o : binop) (l r : fexpr)
| FUn (o : unop) (e : fexpr)
| FCast (e : fexpr) (t : fty)
| FIndex (a i : fexpr)
| FAccess (field : nat) (variant : name) (value : fexpr)
| FInt (c : cint)
| FConst (n : name) (t : fty) (value : fexpr)
| FInput (n : name) (t : fty)
| FField (f : nat)
| FStr (s : list Z)
| FTern (c a b : fexpr)
| FBoolean (b : bool)
| FCall (f : name) (args : list fexpr)
| FMember (e : fexpr) (flag : name) (value : fexpr).

(** asg/field.rs:4-9 TypeArgument (can_resolve_auto is not used by the analysis). *)
Record param := { pm_name : name; pm_type : fty; pm_default : option fexpr }.
(** asg/field.rs:11-16 TypeTransform. *)
Record xuse := { xu_name : name; xu_cond : option fexpr; xu_args : list fexpr }.
(** asg/field.rs:18-31 Field. *)
Record field := { f_name : name; f_params : list param; f_type : fty; f_calc : option fexpr; f_cond : option fexpr;
  f_xs : list xuse; f_top : bool; f_cyclic : bool; f_pad : bool }.
(** asg/const_declaration.rs. *)
Record const := { c_name : name; c_type : fty; c_value : fexpr }.
(** asg/ffi.rs FFIArgument, asg/transform.rs, asg/function.rs. *)
Record fparam := { fp_type : option fty; fp_optional : bool }.
Record func := { fn_params : list fparam; fn_ret : fty }.

(** indexmap::IndexMap: [insert] replaces the value of an existing key in place. *)
Fixpoint name_eqb (a b : name) : bool :=
  match a, b with
  | [], [] => true
  | x :: a, y :: b => (x =? y) && name_eqb a b
  | _, _ => false
  end.
Fixpoint mget {A} (k : name) (m : list (name * A)) : option A :=
  match m with
  | [] => None
  | (k', v) :: m => if name_eqb k k' then Some v else mget k m
  end.
Fixpoint mput {A} (k : name) (v : A) (m : list (name * A)) : list (name * A) :=
  match m with
  | [] => [(k, v)]
  | (k', v') :: m => if name_eqb k k' then (k', v) :: m else (k', v') :: mput k v m
  end.

(** asg/program.rs Program, with the store of fields. *)
Record prog := { p_store : list field; p_types : list (name * nat); p_consts : list (name * const);
  p_xforms : list (name * list fparam); p_funcs : list (name * func) }.
Definition fget (p : prog) (i : nat) : option field := nth_error (p_store p) i.

(** ffi/type_.rs ForeignType: the prelude's integers and strings (prelude/var.rs:31-60, utf8.rs:6-17, utf16.rs:6-17)
    and user-supplied ones, which keep the default partial methods (ffi/type_.rs:36-61). *)
Inductive fobj := FoVar (s : scalar) | FoArr (s : scalar) | FoUser (from to : fty -> bool).
(** What the analysis is given: foreign objects by name, the equality of expressions (derived, asg/expression/mod.rs:36:
    it also compares source positions, which the model drops), and the resolver (import.rs). *)
Record env := { e_obj : name -> fobj; e_eq : fexpr -> fexpr -> bool }.

(** semantics/error.rs AsgError; positions and most texts are dropped. *)
Inductive aerr :=
| XFfiMissing | XImportMissing | XImportUnresolved | XImportParse (e : perr)
| XTypeRedef (n : name) | XTransformRedef (n : name) | XFunctionRedef (n : name) | XConstRedef (n : name)
| XConstType | XCastType | XEnumDefaultRedef | XVariantRedef (n : name) | XFlagRedef (n : name) | XFieldRedef (n : name)
| XUnresolvedType (n : name) | XUnresolvedVar (n : name) | XUnresolvedTransform (n : name) | XUnresolvedFunction (n : name)
| XUnexpectedType | XIllegalCast | XDefaultVariant | XUnresolvedVariant | XUnresolvedFlag | XUninferred | XInvalidInt
| XFfiCount (min max got : nat) | XArgCount (min max got : nat) | XArgOrder | XFlag (n : name) | XInline | XToplevel
| XAfterUnconditional | XEnumPad | XMember | XUnknown.
Definition R := res aerr.

(** ** Types *)
(** ast/types/scalar.rs: [From<ScalarType>] is big-endian. *)
Definition be (s : scalar) : escalar := {| es_scalar := s; es_endian := Big |}.
Definition endian_eqb (a b : endian) : bool := match a, b with Big, Big | Little, Little => true | _, _ => false end.
Definition escalar_eqb (a b : escalar) : bool := scalar_eqb (es_scalar a) (es_scalar b) && endian_eqb (es_endian a) (es_endian b).

(** asg/types/mod.rs:82-87 Type::resolved. *)
Fixpoint resolved (n : nat) (p : prog) (t : fty) : R fty :=
  match t, n with
  | FRef i _, S n => match fget p i with Some f => resolved n p (f_type f) | None => Panic end
  | FRef _ _, O => Hang
  | t, _ => Ok t
  end.

Section Types.
  Variable en : env.
  Definition opt_eqb (a b : option fexpr) : bool :=
    match a, b with Some a, Some b => e_eq en a b | None, None => true | _, _ => false end.
  (** IndexMap equality: same keys with equal values, in any order. *)
  Definition map_eqb {A} (eq : A -> A -> bool) (a b : list (name * A)) : bool :=
    (List.length a =? List.length b)%nat && forallb (fun x => match mget (fst x) b with Some v => eq (snd x) v | None => false end) a.
  (** [all] short-circuits. *)
  Fixpoint allR {A} (f : A -> R bool) (l : list A) : R bool :=
    match l with
    | [] => Ok true
    | x :: l => let! b := f x in if b then allR f l else Ok false
    end.

  (** asg/types/mod.rs:89-112 Type::assignable_from: [assign t1 t2] says t1 is assignable from t2.  The branches for
      references (91-98) are dead: both sides were resolved.  Containers compare length, items and is_enum
      (container.rs:3-8), fields by name and type (field.rs:60-64), enums and bitfields structurally (enum_.rs:3-8,
      bitfield.rs:3-8), arrays by element type and length (array.rs:3-13). *)
  Fixpoint assign (n : nat) (p : prog) (t1 t2 : fty) {struct n} : R bool :=
    match n with
    | O => Hang
    | S n =>
      let! a := resolved n p t1 in
      let! b := resolved n p t2 in
      match a, b with
      | _, FForeign f =>
          match e_obj en f with
          | FoVar s => assign n p a (FScalar (be s))
          | FoArr s => match a with FArr el _ _ => assign n p (FScalar (be s)) el | _ => Ok false end
          | FoUser _ to => Ok (to a)
          end
      | FForeign f, _ =>
          match e_obj en f with
          | FoVar s => assign n p (FScalar (be s)) b
          | FoArr s => match b with FArr el _ _ => assign n p (FScalar (be s)) el | _ => Ok false end
          | FoUser from _ => Ok (from b)
          end
      | FCont l1 i1 g1, FCont l2 i2 g2 =>
          if opt_eqb l1 l2 && (List.length i1 =? List.length i2)%nat then
            let! r := allR (fun x : name * nat =>
              match mget (fst x) i2 with
              | Some j =>
                  match fget p (snd x), fget p j with
                  | Some f1, Some f2 => if name_eqb (f_name f1) (f_name f2) then assign n p (f_type f1) (f_type f2) else Ok false
                  | _, _ => Panic
                  end
              | None => Ok false
              end) i1 in
            Ok (r && Bool.eqb g1 g2)
          else Ok false
      | FEnum n1 r1 i1, FEnum n2 r2 i2 => Ok (name_eqb n1 n2 && escalar_eqb r1 r2 && map_eqb opt_eqb i1 i2)
      | FBits n1 r1 i1, FBits n2 r2 i2 => Ok (name_eqb n1 n2 && escalar_eqb r1 r2 && map_eqb (e_eq en) i1 i2)
      | FScalar s1, FScalar s2 => Ok (escalar_eqb s2 s1)
      | FArr e1 x1 l1, FArr e2 x2 l2 =>
          let! r := assign n p e1 e2 in Ok (r && (Bool.eqb x1 x2 && opt_eqb l1 l2))
      | FF32, FF32 | FF64, FF64 | FF64, FF32 | FBool, FBool => Ok true
      | _, _ => Ok false
      end
    end.

  (** asg/types/mod.rs:114-142 Type::can_coerce_to: [coerce from to]. *)
  Definition coerce (n : nat) (p : prog) (from to : fty) : R bool :=
    let! a := resolved n p from in
    let! b := resolved n p to in
    Ok (match a, b with
        | FEnum _ r _, FScalar s | FBits _ r _, FScalar s => can_implicit_cast_to (es_scalar r) (es_scalar s)
        | FScalar s, FEnum _ r _ | FScalar s, FBits _ r _ => can_implicit_cast_to (es_scalar s) (es_scalar r)
        | FScalar s, FScalar s' => can_implicit_cast_to (es_scalar s) (es_scalar s')
        | _, _ => false
        end).

  (** asg/types/mod.rs:144-159 Type::can_cast_to. *)
  Definition castable (n : nat) (p : prog) (from to : fty) : R bool :=
    let! a := assign n p to from in
    if a then Ok true else
    let! c := coerce n p to from in
    if c then Ok true else
    let! a := resolved n p from in
    let! b := resolved n p to in
    Ok (match a, b with
        | FScalar _, FScalar _ | FF32, FF64 | FF64, FF32 | FF32, FScalar _ | FF64, FScalar _ | FScalar _, FF32 | FScalar _, FF64 => true
        | _, _ => false
        end).

  (** semantics/partial_type.rs:3-16 PartialType. *)
  Inductive pscalar := PSome (s : scalar) | PDefaults (s : scalar) | PNone.
  Inductive ptype := PType (t : fty) | PScalar (s : pscalar) | PArray (e : option ptype) | PAny.

  (** semantics/partial_type.rs:86-95 [Into<PartialType> for Type]. *)
  Fixpoint into_partial (n : nat) (p : prog) (t : fty) : R ptype :=
    match n with
    | O => Hang
    | S n =>
      match t with
      | FRef i _ => match fget p i with Some f => into_partial n p (f_type f) | None => Panic end
      | FScalar s => Ok (PScalar (PSome (es_scalar s)))
      | FArr el _ _ => let! e := into_partial n p el in Ok (PArray (Some e))
      | t => Ok (PType t)
      end
    end.

  (** [obj.assignable_to_partial] (ffi/type_.rs:50-61, prelude/var.rs:46-56). *)
  Definition obj_to_partial (n : nat) (p : prog) (o : fobj) (x : ptype) : R bool :=
    let to t := match o with
                | FoVar s => assign n p t (FScalar (be s))
                | FoArr s => match t with FArr el _ _ => assign n p (FScalar (be s)) el | _ => Ok false end
                | FoUser _ to => Ok (to t)
                end in
    match o, x with
    | _, PType t => to t
    | _, PAny => Ok true
    | FoVar s, PScalar (PSome s') => assign n p (FScalar (be s)) (FScalar (be s'))
    | FoVar _, PScalar _ => Ok true
    | _, PScalar (PSome s) | _, PScalar (PDefaults s) => to (FScalar (be s))
    | _, _ => Ok false
    end.

  (** semantics/partial_type.rs:19-40 PartialType::assignable_from. *)
  Fixpoint passign (n : nat) (p : prog) (x : ptype) (t : fty) {struct x} : R bool :=
    let! t := resolved n p t in
    match x, t with
    | x, FForeign f => obj_to_partial n p (e_obj en f) x
    | PType u, t => assign n p u t
    | PScalar (PSome s), t | PScalar (PDefaults s), t => assign n p (FScalar (be s)) t
    | PScalar PNone, _ => Ok true
    | PArray None, FArr _ _ _ => Ok true
    | PArray (Some x), FArr el _ _ => passign n p x el
    | PAny, _ => Ok true
    | _, _ => Ok false
    end.

  (** semantics/partial_type.rs:42-62 PartialType::coercable_from. *)
  Definition pcoerce (n : nat) (p : prog) (x : ptype) (t : fty) : R bool :=
    let! t := resolved n p t in
    match x, t with
    | PScalar (PSome s), t | PScalar (PDefaults s), t =>
        match t with
        | FEnum _ r _ => if can_implicit_cast_to (es_scalar r) s then Ok true else coerce n p t (FScalar (be s))
        | t => coerce n p t (FScalar (be s))
        end
    | PType u, t => coerce n p t u
    | _, _ => Ok false
    end.

  (** semantics/partial_type.rs:64-71 PartialType::into_type. *)
  Definition into_type (x : ptype) : option fty :=
    match x with
    | PType t => Some t
    | PScalar (PSome s) | PScalar (PDefaults s) => Some (FScalar (be s))
    | _ => None
    end.

  (** asg/expression/mod.rs:55-88 get_type and the get_type of each node. *)
  Definition is_bool_op (o : binop) : bool :=
    match o with BLt | BGt | BLte | BGte | BEq | BNe | BOr | BAnd => true | _ => false end.
  Fixpoint get_type (n : nat) (p : prog) (e : fexpr) : R (option fty) :=
    match e with
    | FBin o l r =>
        if is_bool_op o then Ok (Some FBool)
        else let! t := get_type n p l in match t with Some t => Ok (Some t) | None => get_type n p r end
    | FUn _ e => get_type n p e
    | FCast _ t => Ok (Some t)
    | FIndex a _ => let! t := get_type n p a in Ok (match t with Some (FArr el _ _) => Some el | _ => None end)
    | FAccess i _ _ => match fget p i with Some f => Ok (Some (f_type f)) | None => Panic end
    | FInt c => Ok (Some (FScalar (be (ci_ty c))))
    | FConst _ t _ => Ok (Some t)
    | FInput _ t => Ok (Some t)
    | FField i => match fget p i with Some f => Ok (Some (f_type f)) | None => Panic end
    | FStr s => Ok (Some (FArr (FScalar (be U8)) true (Some (FInt (CI U64 (Z.of_nat (List.length s)))))))
    | FTern _ a b => let! t := get_type n p a in match t with Some t => Ok (Some t) | None => get_type n p b end
    | FBoolean _ => Ok (Some FBool)
    | FCall f _ => match mget f (p_funcs p) with Some f => Ok (Some (fn_ret f)) | None => Panic end
    | FMember e _ _ =>
        let! t := get_type n p e in
        match t with
        | Some t => let! t := resolved n p t in Ok (match t with FBits _ _ _ => Some FBool | _ => None end)
        | None => Ok None
        end
    end.

  (** semantics/convert/expression/mod.rs:76-105 assign_to_or_coerce_to. *)
  Definition fit (n : nat) (p : prog) (e : fexpr) (x : ptype) : R fexpr :=
    let! t := get_type n p e in
    match t with
    | None => Panic                                                     (* 82: expect("coercion missing type") *)
    | Some t =>
        let! a := passign n p x t in
        if a then Ok e else
        let! c := pcoerce n p x t in
        if c then match into_type x with Some u => Ok (FCast e u) | None => Err XUninferred end
        else Err XUnexpectedType
    end.
End Types.

(** ** Scopes (semantics/scope.rs): innermost frame first; the outermost one is the program's. *)
Record frame := { fr_fields : list (name * nat); fr_inputs : list (name * fty) }.
Definition scope := list frame.
Definition frame0 : frame := {| fr_fields := []; fr_inputs := [] |}.
(** semantics/resolve.rs:4-22. *)
Fixpoint resolve_field (sc : scope) (x : name) : option nat :=
  match sc with
  | [] => None
  | f :: sc => match mget x (fr_fields f) with Some i => Some i | None => resolve_field sc x end
  end.
Fixpoint resolve_input (sc : scope) (x : name) : option fty :=
  match sc with
  | [] => None
  | f :: sc => match mget x (fr_inputs f) with Some t => Some t | None => resolve_input sc x end
  end.

(** Argument counting, convert/ffi_arguments.rs:11-29 and convert/type_/type_ref.rs:10-32.
    [last k l] is the slice [l[l.len() - k..]]. *)
Definition last_n {A} (k : nat) (l : list A) : list A := skipn (List.length l - k) l.
Definition ffi_required (ps : list fparam) : nat := List.length (filter (fun x => negb (fp_optional x)) ps).
Definition ffi_check (got : nat) (ps : list fparam) : R unit :=
  let min := ffi_required ps in
  if (min <? got)%nat && existsb (fun x => negb (fp_optional x)) (last_n min ps) then Panic
  else if (got <? min)%nat || (List.length ps <? got)%nat then Err (XFfiCount min (List.length ps) got)
  else Ok tt.
Definition has_default (x : param) : bool := match pm_default x with Some _ => true | None => false end.
Definition type_required (ps : list param) : nat := List.length (filter (fun x => negb (has_default x)) ps).
Definition type_check (got : nat) (ps : list param) : R unit :=
  let min := type_required ps in
  if (min <? got)%nat && existsb has_default (last_n min ps) then Err XArgOrder
  else if (got <? min)%nat || (List.length ps <? got)%nat then Err (XArgCount min (List.length ps) got)
  else Ok tt.

(** convert/type_/mod.rs:13-20 TypePurpose. *)
Inductive purpose := ForType (n : name) | ForConst | ForArray | ForField | ForExpr.

Definition is_eager_bool (o : binop) : bool := match o with BOr | BAnd => true | _ => false end.
(** convert/expression/binary.rs:23-28. *)
Definition init_expected (o : binop) (x : ptype) : ptype :=
  match o with
  | BLt | BGt | BLte | BGte => PScalar PNone
  | BEq | BNe => PAny
  | BOr | BAnd => PType FBool
  | _ => x
  end.

Section Convert.
  Variable en : env.
  Variable n : nat.

  (** ** Expressions and types that declare nothing *)
  Section Rd.
  Variable p : prog.

  (** convert/expression/*.rs; [cinl] is convert/type_/mod.rs:23-54 for types that are not definitions. *)
  Fixpoint cexpr (sc : scope) (e : aexpr) (x : ptype) {struct e} : R fexpr :=
    let! e' :=
      match e with
      | ABin o l r =>                                                   (* binary.rs *)
          let! k := (if is_bool_op o then passign en n p x FBool else Ok true) in
          if negb k then Err XUnexpectedType else
          match cexpr sc l (init_expected o x) with
          | Ok l' =>
              let! t := get_type n p l' in
              match t with
              | Some t => let! xt := into_partial n p t in let! r' := cexpr sc r xt in Ok (FBin o l' r')
              | None => Panic                                           (* excluded by [fit] *)
              end
          | Err _ =>
              let! r' := cexpr sc r (init_expected o x) in
              let! t := get_type n p r' in
              match t with
              | Some t => let! xt := into_partial n p t in let! l' := cexpr sc l xt in Ok (FBin o l' r')
              | None => Err XUninferred
              end
          | Panic => Panic
          | Hang => Hang
          end
      | AUn o e =>                                                      (* unary.rs; it converts the operand again at the end, with the same result *)
          let! e' := cexpr sc e x in
          match o with
          | UNot => let! k := passign en n p x FBool in if k then Ok (FUn o e') else Err XUnexpectedType
          | UNegate | UBitNot =>
              let! t := get_type n p e' in
              match t with
              | Some t =>
                  let! k := passign en n p (PScalar PNone) t in
                  if negb k then Err XUnexpectedType else
                  match o, t with
                  | UNegate, FScalar s => if is_signed (es_scalar s) then Ok (FUn o e') else Err XUnexpectedType
                  | _, _ => Ok (FUn o e')
                  end
              | None => Ok (FUn o e')
              end
          end
      | ACast e t =>                                                    (* cast.rs *)
          match t with
          | YCont _ _ _ | YEnum _ _ | YBits _ _ => Err XCastType
          | _ =>
              let! t' := cinl sc t ForExpr in
              let! e' := cexpr sc e PAny in
              let! ty := get_type n p e' in
              match ty with
              | Some ty => let! k := castable en n p ty t' in if k then Ok (FCast e' t') else Err XIllegalCast
              | None => Err XUninferred
              end
          end
      | AIndex a i =>                                                   (* array_index.rs *)
          let! a' := cexpr sc a (PArray (Some x)) in
          let! i' := cexpr sc i (PScalar (PSome U64)) in
          Ok (FIndex a' i')
      | AEnumAccess tn v =>                                             (* enum_access.rs *)
          match mget tn (p_types p) with
          | None => Err (XUnresolvedType tn)
          | Some i =>
              match fget p i with
              | None => Panic
              | Some f =>
                  match f_type f with
                  | FEnum _ _ items =>
                      match mget v items with
                      | None => Err XUnresolvedVariant
                      | Some None => Err XDefaultVariant
                      | Some (Some c) => Ok (FAccess i v c)
                      end
                  | FBits _ _ items => match mget v items with None => Err XUnresolvedFlag | Some c => Ok (FAccess i v c) end
                  | _ => Err XUnexpectedType
                  end
              end
          end
      | AInt v s =>                                                     (* int.rs *)
          let! ty := match s, x with
                     | Some s, _ => Ok s
                     | None, PScalar (PSome s) | None, PScalar (PDefaults s) => Ok s
                     | None, _ => Err XUnexpectedType
                     end in
          match ci_parse ty v with Some c => Ok (FInt c) | None => Err XInvalidInt end
      | ABool b => Ok (FBoolean b)                                      (* boolean.rs *)
      | ARef v =>                                                       (* var_ref.rs *)
          match resolve_field sc v with
          | Some i => Ok (FField i)
          | None =>
              match resolve_input sc v with
              | Some t => Ok (FInput v t)
              | None => match mget v (p_consts p) with
                        | Some c => Ok (FConst (c_name c) (c_type c) (c_value c))
                        | None => Err (XUnresolvedVar v)
                        end
              end
          end
      | AStr s => Ok (FStr s)                                           (* string.rs *)
      | ATern c a b =>                                                  (* ternary.rs *)
          let! c' := cexpr sc c (PType FBool) in
          let! a' := cexpr sc a x in
          let! xt := match x with
                     | PAny => let! t := get_type n p a' in match t with Some t => into_partial n p t | None => Err XUninferred end
                     | x => Ok x
                     end in
          let! b' := cexpr sc b xt in
          Ok (FTern c' a' b')
      | ACall f args =>                                                 (* call.rs, convert/ffi_arguments.rs *)
          match mget f (p_funcs p) with
          | None => Err (XUnresolvedFunction f)
          | Some fn =>
              let! _ := ffi_check (List.length args) (fn_params fn) in
              let! args' := (fix go (l : list aexpr) (ps : list fparam) {struct l} : R (list fexpr) :=
                 match l, ps with
                 | e :: l, q :: ps =>
                     let! xt := match fp_type q with Some t => into_partial n p t | None => Ok PAny end in
                     let! e' := cexpr sc e xt in let! r := go l ps in Ok (e' :: r)
                 | _, _ => Ok []
                 end) args (fn_params fn) in
              Ok (FCall f args')
          end
      | AMember e m =>                                                  (* member.rs *)
          let! e' := cexpr sc e PAny in
          let! t := get_type n p e' in
          match t with
          | None => Err XUninferred
          | Some t =>
              let! t := resolved n p t in
              match t with
              | FBits _ _ items => match mget m items with Some c => Ok (FMember e' m c) | None => Err XMember end
              | _ => Err XUnexpectedType
              end
          end
      end in
    fit en n p e' x                                                     (* expression/mod.rs:72 *)
  with cinl (sc : scope) (t : atype) (u : purpose) {struct t} : R fty :=
    match t with
    | YScalar s => Ok (FScalar s)
    | YF32 => Ok FF32
    | YF64 => Ok FF64
    | YBool => Ok FBool
    | YRef tn args =>                                                   (* type_/type_ref.rs *)
        match mget tn (p_types p) with
        | None => Err (XUnresolvedType tn)
        | Some i =>
            match fget p i with
            | None => Panic
            | Some f =>
                let! _ := type_check (List.length args) (f_params f) in
                let! args' := (fix go (l : list aexpr) (ps : list param) {struct l} : R (list fexpr) :=
                   match l, ps with
                   | e :: l, q :: ps =>
                       let! xt := into_partial n p (pm_type q) in
                       let! e' := cexpr sc e xt in let! r := go l ps in Ok (e' :: r)
                   | _, _ => Ok []
                   end) args (f_params f) in
                Ok (FRef i args')
            end
        end
    | YArr el ex len =>                                                 (* type_/array.rs, convert/length.rs *)
        let! len' := match len with
                     | None => Ok None
                     | Some e =>
                         let! e' := cexpr sc e (if ex then PArray (Some (PScalar (PSome U8))) else PScalar (PSome U64)) in
                         Ok (Some e')
                     end in
        let! el' := cinl sc el ForArray in
        Ok (FArr el' ex len')
    | YCont _ _ _ => match u with ForArray => Err XInline | _ => Panic end (* not called for other containers *)
    | YEnum _ _ | YBits _ _ => match u with ForType _ => Panic | _ => Err XToplevel end
    end.

  (** convert/ffi_arguments.rs and convert/type_/type_ref.rs:33-40, as used above. *)
  Fixpoint cargs (sc : scope) (l : list aexpr) (xs : list (R ptype)) : R (list fexpr) :=
    match l, xs with
    | e :: l, x :: xs => let! xt := x in let! e' := cexpr sc e xt in let! r := cargs sc l xs in Ok (e' :: r)
    | _, _ => Ok []
    end.
  Definition ffi_expected (q : fparam) : R ptype := match fp_type q with Some t => into_partial n p t | None => Ok PAny end.

  (** convert/type_/enum_.rs:8-86, without the name.  [last] is last_defined_item with the value expression of the
      item's constant, [k] undefined_counter, [acc] the items so far. *)
  Fixpoint cenum (sc : scope) (rep : escalar) (items : list (name * aenum)) (last : option (name * fexpr)) (k : nat)
    (dflt : bool) (acc : list (name * option fexpr)) : R (list (name * option fexpr)) :=
    match items with
    | [] => Ok acc
    | (v, it) :: items =>
        match mget v acc with
        | Some _ => Err (XVariantRedef v)
        | None =>
            if dflt then Err XEnumDefaultRedef else
            match it with
            | VDefault => cenum sc rep items last (S k) true (mput v None acc)
            | VExpr e =>
                let! e' := cexpr sc e (PScalar (PSome (es_scalar rep))) in
                cenum sc rep items (Some (v, e')) 1 false (mput v (Some e') acc)
            | VNone =>
                match last with
                | None => Panic                                         (* 46: unwrap *)
                | Some (ln, le) =>
                    match ci_parse (es_scalar rep) (dec_string (Z.of_nat k)) with
                    | None => Err XInvalidInt
                    | Some c => cenum sc rep items last (S k) false (mput v (Some (FBin BAdd (FConst ln (FScalar rep) le) (FInt c))) acc)
                    end
                end
            end
        end
    end.
  (** convert/type_/bitfield.rs:8-67. *)
  Fixpoint cbits (sc : scope) (rep : escalar) (items : list (name * option aexpr)) (last : option (name * fexpr)) (k : nat)
    (acc : list (name * fexpr)) : R (list (name * fexpr)) :=
    match items with
    | [] => Ok acc
    | (v, it) :: items =>
        match mget v acc with
        | Some _ => Err (XFlagRedef v)
        | None =>
            match it with
            | Some e =>
                let! e' := cexpr sc e (PScalar (PSome (es_scalar rep))) in
                cbits sc rep items (Some (v, e')) 1 (mput v e' acc)
            | None =>
                match last with
                | None => Panic                                         (* 35: unwrap *)
                | Some (ln, le) =>
                    match ci_parse (es_scalar rep) (dec_string (Z.of_nat k)) with
                    | None => Err XInvalidInt
                    | Some c => cbits sc rep items last (S k) (mput v (FBin BShl (FConst ln (FScalar rep) le) (FInt c)) acc)
                    end
                end
            end
        end
    end.

  Definition copt (sc : scope) (e : option aexpr) (x : ptype) : R (option fexpr) :=
    match e with None => Ok None | Some e => let! e' := cexpr sc e x in Ok (Some e') end.

  (** convert/field.rs:76-117: the transforms of a field. *)
  Fixpoint cxforms (sc : scope) (l : list axform) : R (list xuse) :=
    match l with
    | [] => Ok []
    | AXform x args cond :: l =>
        match mget x (p_xforms p) with
        | None => Err (XUnresolvedTransform x)
        | Some ps =>
            let! _ := ffi_check (List.length args) ps in
            let! args' := cargs sc args (map ffi_expected ps) in
            let! cond' := copt sc cond (PType FBool) in
            let! r := cxforms sc l in
            Ok ({| xu_name := x; xu_cond := cond'; xu_args := args' |} :: r)
        end
    end.
  End Rd.

  (** ** Types that declare fields, and fields: these extend the store. *)
  Definition st_add (p : prog) (f : field) : prog :=
    {| p_store := p_store p ++ [f]; p_types := p_types p; p_consts := p_consts p; p_xforms := p_xforms p; p_funcs := p_funcs p |}.
  Fixpoint upd {A} (l : list A) (i : nat) (f : A -> A) : list A :=
    match l, i with
    | [], _ => []
    | x :: l, O => f x :: l
    | x :: l, S i => x :: upd l i f
    end.
  Definition st_set (p : prog) (i : nat) (f : field -> field) : prog :=
    {| p_store := upd (p_store p) i f; p_types := p_types p; p_consts := p_consts p; p_xforms := p_xforms p; p_funcs := p_funcs p |}.
  (** container.rs:66-77, program/field.rs:20-31: a field before its conversion has the placeholder type bool. *)
  Definition placeholder (x : name) (top : bool) : field :=
    {| f_name := x; f_params := []; f_type := FBool; f_calc := None; f_cond := None; f_xs := []; f_top := top; f_cyclic := false; f_pad := false |}.
  Definition pad_field (x : name) (len : fexpr) : field :=
    {| f_name := x; f_params := []; f_type := FArr (FScalar (be U8)) false (Some len); f_calc := None; f_cond := None; f_xs := [];
       f_top := false; f_cyclic := false; f_pad := true |}.
  Definition set_mid (t : fty) (c : option fexpr) (xs : list xuse) (f : field) : field :=
    {| f_name := f_name f; f_params := f_params f; f_type := t; f_calc := f_calc f; f_cond := c; f_xs := xs;
       f_top := f_top f; f_cyclic := f_cyclic f; f_pad := f_pad f |}.
  Definition set_calc (c : option fexpr) (f : field) : field :=
    {| f_name := f_name f; f_params := f_params f; f_type := f_type f; f_calc := c; f_cond := f_cond f; f_xs := f_xs f;
       f_top := f_top f; f_cyclic := f_cyclic f; f_pad := f_pad f |}.
  Definition set_params (ps : list param) (f : field) : field :=
    {| f_name := f_name f; f_params := ps; f_type := f_type f; f_calc := f_calc f; f_cond := f_cond f; f_xs := f_xs f;
       f_top := f_top f; f_cyclic := f_cyclic f; f_pad := f_pad f |}.

  Definition bs_tagged : name := bs "tagged_enum".
  (** container.rs:22-29. *)
  Fixpoint cflags (l : list name) (tagged : bool) : R bool :=
    match l with
    | [] => Ok tagged
    | x :: l => if name_eqb x bs_tagged then cflags l true else Err (XFlag x)
    end.
  Definition pad_name (k : nat) : name := bs "_pad" ++ dec_string (Z.of_nat k).

  (** convert/field.rs:147-165 convert_ast_field_end. *)
  Definition cend (sc : scope) (calc : option aexpr) (i : nat) (p : prog) : R prog :=
    match fget p i with
    | None => Panic
    | Some f =>
        match calc with
        | None => Ok (st_set p i (set_calc None))
        | Some e =>
            let! xt := into_partial n p (f_type f) in
            let! e' := cexpr p sc e xt in
            Ok (st_set p i (set_calc (Some e')))
        end
    end.
  (** container.rs:131-133: the calculations, once every item is declared. *)
  Fixpoint cends (sc : scope) (l : list (nat * option aexpr)) (p : prog) : R prog :=
    match l with
    | [] => Ok p
    | (i, calc) :: l => let! p := cend sc calc i p in cends sc l p
    end.

  (** The state of the loop over a container's items (container.rs:40-130). *)
  Record cst := { cs_prog : prog; cs_items : list (name * nat); cs_fields : list (name * nat);
    cs_ends : list (nat * option aexpr); cs_uncond : bool; cs_pads : nat }.
  Definition calc_of (f : afield) : option aexpr := match f with AField _ c _ _ _ => c end.
  Definition cond_of (f : afield) : option aexpr := match f with AField _ _ _ c _ => c end.

  (** convert/type_/mod.rs:23-54 convert_ast_type, convert/type_/container.rs, convert/field.rs:48-146
      convert_ast_field_mid. *)
  Fixpoint ctype (sc : scope) (t : atype) (u : purpose) (p : prog) {struct t} : R (fty * prog) :=
    match t with
    | YCont len flags items =>
        match u with
        | ForArray => Err XInline
        | _ =>
            let! len' := copt p sc len (PScalar (PDefaults U64)) in
            let! tagged := cflags flags false in
            if tagged && negb (match u with ForType _ => true | _ => false end) then Err XToplevel else
            let! s := (fix go (l : list aitem) (s : cst) {struct l} : R cst :=
               let sc' := {| fr_fields := cs_fields s; fr_inputs := [] |} :: sc in
               match l with
               | [] => Ok s
               | IField x f :: l =>
                   match mget x (cs_items s) with
                   | Some _ => Err (XFieldRedef x)
                   | None =>
                       let i := List.length (p_store (cs_prog s)) in
                       let! p1 := cmid (frame0 :: sc') f ForField i (st_add (cs_prog s) (placeholder x false)) in
                       if cs_uncond s && tagged then Err XAfterUnconditional else
                       go l {| cs_prog := p1; cs_items := mput x i (cs_items s); cs_fields := mput x i (cs_fields s);
                               cs_ends := cs_ends s ++ [(i, calc_of f)];
                               cs_uncond := cs_uncond s || match cond_of f with None => true | Some _ => false end; cs_pads := cs_pads s |}
                   end
               | IPad e :: l =>
                   if tagged then Err XEnumPad else
                   let x := pad_name (cs_pads s) in
                   let! len := cexpr (cs_prog s) sc' e (PScalar (PSome U64)) in
                   let i := List.length (p_store (cs_prog s)) in
                   go l {| cs_prog := st_add (cs_prog s) (pad_field x len); cs_items := mput x i (cs_items s); cs_fields := cs_fields s;
                           cs_ends := cs_ends s; cs_uncond := cs_uncond s; cs_pads := S (cs_pads s) |}
               end) items {| cs_prog := p; cs_items := []; cs_fields := []; cs_ends := []; cs_uncond := false; cs_pads := 0 |} in
            let! p2 := cends (frame0 :: {| fr_fields := cs_fields s; fr_inputs := [] |} :: sc) (cs_ends s) (cs_prog s) in
            Ok (FCont len' (cs_items s) tagged, p2)
        end
    | YEnum rep items =>
        match u with
        | ForType x => let! its := cenum p sc rep items None 0 false [] in Ok (FEnum x rep its, p)
        | _ => Err XToplevel
        end
    | YBits rep items =>
        match u with
        | ForType x => let! its := cbits p sc rep items None 0 [] in Ok (FBits x rep its, p)
        | _ => Err XToplevel
        end
    | t => let! t' := cinl p sc t u in Ok (t', p)
    end
  with cmid (sc : scope) (f : afield) (u : purpose) (i : nat) (p : prog) {struct f} : R prog :=
    match f with
    | AField t _ flags cond xs =>
        let! r := ctype sc t u p in
        let (t', p1) := r : fty * prog in
        let! cond' := copt p1 sc cond (PType FBool) in
        let! xs' := cxforms p1 sc xs in
        match flags with
        | x :: _ => Err (XFlag x)                                       (* 118-122 *)
        | [] => Ok (st_set p1 i (set_mid t' cond' xs'))
        end
    end.

  (** convert/field.rs:4-46 convert_ast_field_arguments: the parameters of a type, each visible to the later ones. *)
  Fixpoint cparams (sc : scope) (l : list targ) (fr : frame) (acc : list param) (p : prog) : R (frame * list param * prog) :=
    match l with
    | [] => Ok (fr, acc, p)
    | a :: l =>
        let! r := ctype (fr :: sc) (ta_type a) ForExpr p in
        let (t, p) := r : fty * prog in
        let fr := {| fr_fields := fr_fields fr; fr_inputs := mput (ta_name a) t (fr_inputs fr) |} in
        let! d := match ta_default a with
                  | None => Ok None
                  | Some e => let! xt := into_partial n p t in let! e' := cexpr p (fr :: sc) e xt in Ok (Some e')
                  end in
        cparams sc l fr (acc ++ [{| pm_name := ta_name a; pm_type := t; pm_default := d |}]) p
    end.
End Convert.
