(** What it means for a typed program to be the program that was written (C28, C43).  Independent of how the analysis finds it:
    every construct of the source appears in the same place, every name denotes its nearest declaration, and only coercions between
    numbers (and enums, flags and numbers) are added. *)
From Verif Require Import Base Scalar ConstInt ConstIntFacts Tokens Ast Parse Front.
Open Scope list_scope.

(** A later state of the analysis: names keep their meaning, enums and flags their values. *)
Definition is_enum (t : fty) : Prop := match t with FEnum _ _ _ | FBits _ _ _ => True | _ => False end.
Record grow (p p' : prog) : Prop := {
  g_types : forall x i, mget x (p_types p) = Some i -> mget x (p_types p') = Some i;
  g_consts : forall x c, mget x (p_consts p) = Some c -> mget x (p_consts p') = Some c;
  g_xforms : forall x c, mget x (p_xforms p) = Some c -> mget x (p_xforms p') = Some c;
  g_funcs : forall x c, mget x (p_funcs p) = Some c -> mget x (p_funcs p') = Some c;
  g_enums : forall i f, fget p i = Some f -> is_enum (f_type f) -> exists f', fget p' i = Some f' /\ f_type f' = f_type f }.

Section Spec.
  Variable en : env.
  Variable n : nat.
  Variable p : prog.

  (** The values of an enum's or bitfield's named items. *)
  Definition item_value (t : fty) (v : name) (c : fexpr) : Prop :=
    match t with
    | FEnum _ _ items => mget v items = Some (Some c)
    | FBits _ _ items => mget v items = Some c
    | _ => False
    end.

  (** Expressions.  [F] and [I] are the fields and parameters in scope, nearest first: fields come before parameters, parameters
      before constants. *)
  Definition opt_rel {A B} (r : A -> B -> Prop) (a : option A) (b : option B) : Prop :=
    match a, b with Some a, Some b => r a b | None, None => True | _, _ => False end.
  Inductive mirror (F : list (name * nat)) (I : list (name * fty)) : aexpr -> fexpr -> Prop :=
  | m_int v ty c : ci_parse (ci_ty c) v = Some c -> (forall s, ty = Some s -> ci_ty c = s) -> mirror F I (AInt v ty) (FInt c)
  | m_str s : mirror F I (AStr s) (FStr s)
  | m_bool b : mirror F I (ABool b) (FBoolean b)
  | m_field x i : mget x F = Some i -> mirror F I (ARef x) (FField i)
  | m_input x t : mget x F = None -> mget x I = Some t -> mirror F I (ARef x) (FInput x t)
  | m_const x c : mget x F = None -> mget x I = None -> mget x (p_consts p) = Some c ->
      mirror F I (ARef x) (FConst (c_name c) (c_type c) (c_value c))
  | m_enum x v i f c : mget x (p_types p) = Some i -> fget p i = Some f -> item_value (f_type f) v c -> mirror F I (AEnumAccess x v) (FAccess i v c)
  | m_call f fn args args' : mget f (p_funcs p) = Some fn -> Forall2 (mirror F I) args args' -> mirror F I (ACall f args) (FCall f args')
  | m_index a i a' i' : mirror F I a a' -> mirror F I i i' -> mirror F I (AIndex a i) (FIndex a' i')
  | m_member e m e' c q t nm rep items : mirror F I e e' -> grow q p -> get_type n q e' = Ok (Some t) -> resolved n q t = Ok (FBits nm rep items) ->
      mget m items = Some c -> mirror F I (AMember e m) (FMember e' m c)
  | m_un o e e' : mirror F I e e' -> mirror F I (AUn o e) (FUn o e')
  | m_cast e t e' t' : mirror F I e e' -> minl F I t t' -> mirror F I (ACast e t) (FCast e' t')
  | m_bin o l r l' r' : mirror F I l l' -> mirror F I r r' -> mirror F I (ABin o l r) (FBin o l' r')
  | m_tern c a b c' a' b' : mirror F I c c' -> mirror F I a a' -> mirror F I b b' -> mirror F I (ATern c a b) (FTern c' a' b')
  (** an inserted coercion, permitted by the type the expression had then *)
  | m_coerce e e' q t u : mirror F I e e' -> grow q p -> get_type n q e' = Ok (Some t) -> coerce n q t u = Ok true -> mirror F I e (FCast e' u)
  (** Types that declare nothing. *)
  with minl (F : list (name * nat)) (I : list (name * fty)) : atype -> fty -> Prop :=
  | i_scalar s : minl F I (YScalar s) (FScalar s)
  | i_f32 : minl F I YF32 FF32
  | i_f64 : minl F I YF64 FF64
  | i_bool : minl F I YBool FBool
  | i_ref x args i args' : mget x (p_types p) = Some i -> Forall2 (mirror F I) args args' -> minl F I (YRef x args) (FRef i args')
  | i_arr el ex len el' len' : minl F I el el' -> (len = None -> len' = None) -> (forall e, len = Some e -> exists e', len' = Some e' /\ mirror F I e e') ->
      minl F I (YArr el ex len) (FArr el' ex len').

  (** Transforms, in order. *)
  Definition xform_rel (F : list (name * nat)) (I : list (name * fty)) (x : axform) (u : xuse) : Prop :=
    match x with AXform g args cond => xu_name u = g /\ Forall2 (mirror F I) args (xu_args u) /\ opt_rel (mirror F I) cond (xu_cond u) end.

  (** Enums: items in order; an item without value is the last item with one plus the distance to it. *)
  Inductive enum_items (F : list (name * nat)) (I : list (name * fty)) (rep : escalar) : option (name * fexpr) -> nat -> list (name * aenum) -> list (name * option fexpr) -> Prop :=
  | ei_nil last k : enum_items F I rep last k [] []
  | ei_default last k x : enum_items F I rep last k [(x, VDefault)] [(x, None)]
  | ei_expr last k x e e' l l' : mirror F I e e' -> enum_items F I rep (Some (x, e')) 1 l l' ->
      enum_items F I rep last k ((x, VExpr e) :: l) ((x, Some e') :: l')
  | ei_next lx le k x c l l' : ci_parse (es_scalar rep) (dec_string (Z.of_nat k)) = Some c -> enum_items F I rep (Some (lx, le)) (S k) l l' ->
      enum_items F I rep (Some (lx, le)) k ((x, VNone) :: l) ((x, Some (FBin BAdd (FConst lx (FScalar rep) le) (FInt c))) :: l').
  (** Flags: the last one with a value shifted left by the distance to it. *)
  Inductive bits_items (F : list (name * nat)) (I : list (name * fty)) (rep : escalar) : option (name * fexpr) -> nat -> list (name * option aexpr) -> list (name * fexpr) -> Prop :=
  | bi_nil last k : bits_items F I rep last k [] []
  | bi_expr last k x e e' l l' : mirror F I e e' -> bits_items F I rep (Some (x, e')) 1 l l' ->
      bits_items F I rep last k ((x, Some e) :: l) ((x, e') :: l')
  | bi_next lx le k x c l l' : ci_parse (es_scalar rep) (dec_string (Z.of_nat k)) = Some c -> bits_items F I rep (Some (lx, le)) (S k) l l' ->
      bits_items F I rep (Some (lx, le)) k ((x, None) :: l) ((x, FBin BShl (FConst lx (FScalar rep) le) (FInt c)) :: l').

  (** The fields of a container, among its items. *)
  Fixpoint fields_of (items : list aitem) (its : list (name * nat)) : list (name * nat) :=
    match items, its with
    | IField _ _ :: items, b :: its => b :: fields_of items its
    | IPad _ :: items, _ :: its => fields_of items its
    | _, _ => []
    end.
  Definition is_pad (i : aitem) : bool := match i with IPad _ => true | _ => false end.
  Definition unconditional (i : aitem) : bool := match i with IField _ (AField _ _ _ None _) => true | _ => false end.

  (** Types; [top] is the name of the type being declared, if any. *)
  Inductive elab (F : list (name * nat)) (I : list (name * fty)) : option name -> atype -> fty -> Prop :=
  | e_inl top t t' : minl F I t t' -> elab F I top t t'
  | e_enum x rep items its : NoDup (map fst items) -> enum_items F I rep None 0 items its -> elab F I (Some x) (YEnum rep items) (FEnum x rep its)
  | e_bits x rep items its : NoDup (map fst items) -> bits_items F I rep None 0 items its -> elab F I (Some x) (YBits rep items) (FBits x rep its)
  | e_cont top len flags items len' its tagged : opt_rel (mirror F I) len len' ->
      Forall (fun x => x = bs "tagged_enum") flags -> (tagged = true <-> flags <> []) ->
      (tagged = true -> top <> None /\ Forall (fun i => is_pad i = false) items /\
         forall l i r, items = l ++ i :: r -> unconditional i = true -> r = []) ->
      NoDup (map fst its) -> items_elab F I (fields_of items its) [] 0 items its ->
      elab F I top (YCont len flags items) (FCont len' its tagged)
  (** Items: [before] are the fields declared before, [all] all fields of this container; [k] counts the pads. A field's type,
      condition and transforms see [before]; its calculation sees [all]. *)
  with items_elab (F : list (name * nat)) (I : list (name * fty)) : list (name * nat) -> list (name * nat) -> nat -> list aitem -> list (name * nat) -> Prop :=
  | l_nil all before k : items_elab F I all before k [] []
  | l_field all before k x t calc cond xs l i fd l' : fget p i = Some fd -> f_name fd = x -> f_params fd = [] -> f_top fd = false -> f_pad fd = false ->
      elab (before ++ F) I None t (f_type fd) -> opt_rel (mirror (before ++ F) I) cond (f_cond fd) ->
      Forall2 (xform_rel (before ++ F) I) xs (f_xs fd) -> opt_rel (mirror (all ++ F) I) calc (f_calc fd) ->
      items_elab F I all ((x, i) :: before) k l l' ->
      items_elab F I all before k (IField x (AField t calc [] cond xs) :: l) ((x, i) :: l')
  | l_pad all before k e l i fd len l' : fget p i = Some fd -> f_pad fd = true -> f_type fd = FArr (FScalar (be U8)) false (Some len) ->
      f_calc fd = None -> f_cond fd = None -> f_xs fd = [] -> f_params fd = [] -> f_name fd = pad_name k ->
      mirror (before ++ F) I e len -> items_elab F I all before (S k) l l' -> items_elab F I all before k (IPad e :: l) ((pad_name k, i) :: l').

  (** Parameters: each sees the earlier ones, and its default itself too. *)
  Inductive params_elab : list (name * fty) -> list targ -> list param -> Prop :=
  | q_nil I : params_elab I [] []
  | q_cons I x t d pm l l' : pm_name pm = x -> elab [] I None t (pm_type pm) -> opt_rel (mirror [] ((x, pm_type pm) :: I)) d (pm_default pm) ->
      params_elab ((x, pm_type pm) :: I) l l' -> params_elab I ({| ta_name := x; ta_type := t; ta_default := d |} :: l) (pm :: l').
  (** The parameters as seen by the body, last one first. *)
  Definition inputs (ps : list param) : list (name * fty) := rev (map (fun q => (pm_name q, pm_type q)) ps).

  (** A declared type. *)
  Definition type_elab (x : name) (args : list targ) (f : afield) : Prop :=
    exists i fd, mget x (p_types p) = Some i /\ fget p i = Some fd /\ f_name fd = x /\ f_top fd = true /\ f_pad fd = false /\
      params_elab [] args (f_params fd) /\
      match f with AField t calc flags cond xs =>
        flags = [] /\ elab [] (inputs (f_params fd)) (Some x) t (f_type fd) /\ opt_rel (mirror [] (inputs (f_params fd))) cond (f_cond fd) /\
        Forall2 (xform_rel [] (inputs (f_params fd))) xs (f_xs fd) /\ opt_rel (mirror [] (inputs (f_params fd))) calc (f_calc fd)
      end.
  (** A declared constant. *)
  Definition const_elab (x : name) (t : atype) (v : aexpr) : Prop :=
    exists c, mget x (p_consts p) = Some c /\ c_name c = x /\ elab [] [] None t (c_type c) /\ ~ is_enum (c_type c) /\ mirror [] [] v (c_value c).
End Spec.

(** No field is named like a generated padding item. *)
Fixpoint clean_type (t : atype) : Prop :=
  match t with
  | YCont _ _ items =>
      (fix go (l : list aitem) : Prop :=
         match l with
         | [] => True
         | IField x f :: l => (forall k, x <> pad_name k) /\ clean_field f /\ go l
         | IPad _ :: l => go l
         end) items
  | _ => True
  end
with clean_field (f : afield) : Prop := match f with AField t _ _ _ _ => clean_type t end.
