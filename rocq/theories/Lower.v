(** From the analysed program (Front.v, Program.v) to the program the coders are generated from (Asg.v).  In the code the two are one data structure
    (asg/); the models differ in representation: here fields are numbers in a store, references point to fields, and the items of enums and bitfields are
    expressions; there fields are named, containers nested, and items evaluated.  [None] where the compiler panics while generating code.
    All paths are relative to protospec-build/src. *)
From Verif Require Import Base Scalar ConstInt EnumBits Expr Asg KindSpec Tokens Ast Parse Front Program ConstSpec LowerSpec.
Open Scope string_scope. Open Scope Z_scope. Open Scope list_scope.

(** Names are ASCII (tokenizer.rs). *)
Definition ident (x : name) : string := string_of_list_ascii (map (fun z => Ascii.ascii_of_nat (Z.to_nat z)) x).

Definition obnd {A B} (o : option A) (f : A -> option B) : option B := match o with Some a => f a | None => None end.
Notation "'let?' x ':=' o 'in' k" := (obnd o (fun x => k)) (at level 200, x pattern, k at level 200, only parsing).
Fixpoint traverse {A B} (f : A -> option B) (l : list A) : option (list B) :=
  match l with [] => Some [] | x :: l => let? y := f x in let? ys := traverse f l in Some (y :: ys) end.
Definition opto {A B} (f : A -> option B) (o : option A) : option (option B) :=
  match o with None => Some None | Some a => let? b := f a in Some (Some b) end.

Section Lower.
  (** The overflow checks of the compiler's own build. *)
  Variable chk : bool.
  Variable p : prog.

  (** compiler/mod.rs:480-509, 612-625: an item's value is evaluated and emitted as a literal of the representation. *)
  Definition item_val (rep : escalar) (e : fexpr) : option Z :=
    match feval chk e with
    | Ok (Some (CInt c)) => if scalar_eqb (ci_ty c) (es_scalar rep) then Some (ci_val c) else None
    | _ => None
    end.
  Definition enum_def (x : name) (rep : escalar) (items : list (name * option fexpr)) : option enumdef :=
    let? its := traverse (fun i : name * option fexpr => let? v := opto (item_val rep) (snd i) in Some (ident (fst i), v)) items in
    Some {| en_name := ident x; en_rep := rep; en_items := its |}.
  Definition bits_def (x : name) (rep : escalar) (items : list (name * fexpr)) : option bitsdef :=
    let? its := traverse (fun i : name * fexpr => let? v := item_val rep (snd i) in Some (ident (fst i), v)) items in
    Some {| bf_name := ident x; bf_rep := rep; bf_items := its |}.

  (** The type of an expression, as far as the emission of expressions looks at it (compiler/expr.rs:312-332): references resolved, array lengths and the
      contents of containers dropped. *)
  Fixpoint lower_ety (n : nat) (t : fty) {struct n} : option ety :=
    match n with
    | O => None
    | S n =>
        match t with
        | FScalar e => Some (TyScalar e)
        | FF32 => Some TyF32
        | FF64 => Some TyF64
        | FBool => Some TyBool
        | FEnum x rep items => let? d := enum_def x rep items in Some (TyEnum d)
        | FBits x rep items => let? d := bits_def x rep items in Some (TyBits d)
        | FForeign f => Some (TyForeign (ident f))
        | FRef i _ => let? f := fget p i in lower_ety n (f_type f)
        | FArr el _ _ => let? e := lower_ety n el in Some (TyArr e)
        | FCont _ _ _ => Some (TyScalar u8be)
        end
    end.

  Definition is_fcont (t : fty) : bool := match t with FCont _ _ _ => true | _ => false end.
  (** asg/expression/: one constructor each.
      - A container has no variable in the generated functions: mentioning one panics (compiler/decoder.rs:44-57, compiler/encoder.rs:41-52), except as
        argument of [blen] where that is allowed ([blen]: in a calculation; elsewhere blen panics, prelude/blen.rs:19-21).
      - [FAccess]: the item's value, as for the definition. *)
  Fixpoint lower_expr (n : nat) (blen : bool) (e : fexpr) {struct e} : option expr :=
    match e with
    | FBin o l r => let? l := lower_expr n blen l in let? r := lower_expr n blen r in Some (EBin (bop o) l r)
    | FUn o e => let? e := lower_expr n blen e in Some (EUn (uop o) e)
    | FCast e t => let? e := lower_expr n blen e in let? t := lower_ety n t in Some (ECast e t)
    | FIndex a i => let? a := lower_expr n blen a in let? i := lower_expr n blen i in Some (EIndex a i)
    | FAccess i v c =>
        let? f := fget p i in
        match f_type f with
        | FEnum x rep items => let? d := enum_def x rep items in let? z := item_val rep c in Some (EEnum d (ident v) z)
        | FBits x rep items => let? d := bits_def x rep items in let? z := item_val rep c in Some (EFlag d (ident v) z)
        | _ => None
        end
    | FInt c => Some (EInt c)
    | FConst x t v => let? t := lower_ety n t in let? v := lower_expr n blen v in Some (EConst (ident x) t v)
    | FInput x t => let? t := lower_ety n t in Some (EInput (ident x) t)
    | FField i =>
        let? f := fget p i in
        if is_fcont (f_type f) then None else let? t := lower_ety n (f_type f) in Some (EField (ident (f_name f)) t)
    | FStr s => Some (EStr s)
    | FTern c a b => let? c := lower_expr n blen c in let? a := lower_expr n blen a in let? b := lower_expr n blen b in Some (ETern c a b)
    | FBoolean b => Some (EBool b)
    | FCall g args =>
        if String.eqb (ident g) "blen" then
          if blen then
            match args with
            | [FField i] => let? f := fget p i in let? t := lower_ety n (f_type f) in Some (ECall "blen" [EField (ident (f_name f)) t])
            | _ => None
            end
          else None
        else
          let? args := (fix go (l : list fexpr) : option (list expr) :=
            match l with [] => Some [] | x :: l => let? y := lower_expr n blen x in let? ys := go l in Some (y :: ys) end) args in
          Some (ECall (ident g) args)
    | FMember e m c =>
        let? e := lower_expr n blen e in
        match feval chk c with Ok (Some (CInt z)) => Some (EMember e (ident m) (ci_val z)) | _ => None end
    end.

  (** asg/field.rs TypeTransform. *)
  Definition lower_x (n : nat) (x : Front.xuse) : option Asg.xuse :=
    let? c := opto (lower_expr n false) (xu_cond x) in
    let? args := traverse (lower_expr n false) (xu_args x) in
    Some {| x_name := ident (xu_name x); x_cond := c; x_args := args |}.
  (** asg/field.rs Field, without its type. *)
  Definition lower_attr (n : nat) (f : field) : option fattr :=
    let? calc := opto (lower_expr n true) (f_calc f) in
    let? cond := opto (lower_expr n false) (f_cond f) in
    let? xs := traverse (lower_x n) (f_xs f) in
    Some {| fa_name := ident (f_name f); fa_calc := calc; fa_cond := cond; fa_xs := xs; fa_pad := f_pad f |}.
  (** asg/types/array.rs LengthConstraint: [expandable] with a value is a terminator, without one the rest.  An array of neither kind cannot be written. *)
  Definition lower_len (n : nat) (expandable : bool) (len : option fexpr) : option lenc :=
    match expandable, len with
    | true, Some e => let? e := lower_expr n false e in Some (LTerm e)
    | true, None => Some LRest
    | false, Some e => let? e := lower_expr n false e in Some (LFixed e)
    | false, None => None
    end.
  (** asg/types/mod.rs:21-33 Type.  [n] bounds the nesting. *)
  Fixpoint lower_type (n : nat) (t : fty) {struct n} : option ty :=
    match n with
    | O => None
    | S n =>
        match t with
        | FScalar e => Some (TScalar e)
        | FF32 => Some TF32
        | FF64 => Some TF64
        | FBool => Some TBool
        | FEnum x rep items => let? d := enum_def x rep items in Some (TEnum d)
        | FBits x rep items => let? d := bits_def x rep items in Some (TBits d)
        | FForeign f => Some (TForeign (ident f))
        | FRef i args => let? f := fget p i in let? args := traverse (lower_expr n false) args in Some (TRef (ident (f_name f)) args)
        | FArr el ex len => let? el := lower_type n el in let? l := lower_len n ex len in Some (TArr el l)
        | FCont len items tagged =>
            let? len := opto (lower_expr n false) len in
            let? its := traverse (fun i : name * nat => let? f := fget p (snd i) in let? a := lower_attr n f in let? t := lower_type n (f_type f) in Some (a, t)) items in
            Some (TCont len tagged its)
        end
    end.
  (** A type declaration; asg/field.rs TypeArgument. *)
  Definition lower_decl (n : nat) (f : field) : option decl :=
    let? a := lower_attr n f in
    let? t := lower_type n (f_type f) in
    let? ps := traverse (fun q => let? d := opto (lower_expr n false) (Front.pm_default q) in Some {| Asg.pm_name := ident (Front.pm_name q); Asg.pm_default := d |}) (f_params f) in
    Some {| d_attr := a; d_ty := t; d_params := ps |}.
  (** compiler/mod.rs:145-176 compile_program: the types, in order.  A type imported under another name is emitted under that name, but its functions are
      implemented for the original name (mod.rs:191-271): rustc refuses it. *)
  Definition lower (n : nat) : option (list (string * decl)) :=
    traverse (fun x : name * nat => let? f := fget p (snd x) in if name_eqb (fst x) (f_name f) then let? d := lower_decl n f in Some (ident (fst x), d) else None) (p_types p).
End Lower.
