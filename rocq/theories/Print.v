(** A printer for syntax trees (specification only: the project has none), which trees it
    can print, and the proof that what it prints is in the grammar. *)
From Verif Require Import Base Scalar Tokens Ast Grammar.
Open Scope list_scope.

Fixpoint join (l : list (list token)) : list token :=
  match l with [] => [] | [x] => x | x :: l => x ++ TOp PComma :: join l end.
(** How tightly the outermost construct of [e] binds: 0 for a ternary, [S l] for level [l]. *)
Definition plev (e : aexpr) : nat :=
  match e with
  | ATern _ _ _ => 0 | ABin o _ _ => S (op_prec o) | ACast _ _ => S cast_prec | AUn _ _ => S unary_prec
  | AIndex _ _ | AMember _ _ => S postfix_prec | _ => S primary_prec
  end%nat.
(** Parentheses exactly when the context wants something that binds more tightly. *)
Definition par (k : nat) (e : aexpr) (ts : list token) : list token :=
  if (plev e <? k)%nat then TOp PLeftParen :: ts ++ [TOp PRightParen] else ts.
Definition scalar_tok (s : escalar) : token := match scalar_word s with Some k => TKw k | None => TKw KU8 end.

Fixpoint pr (e : aexpr) : list token :=
  match e with
  | AInt v None => [TInt v]
  | AInt v (Some s) => [TInt v; scalar_tok {| es_scalar := s; es_endian := Big |}]
  | AStr s => [TStr s]
  | ABool true => [TKw KTrue]
  | ABool false => [TKw KFalse]
  | ARef n => [TIdent n]
  | AEnumAccess n v => [TIdent n; TOp PDoubleColon; TIdent v]
  | ACall f args => TIdent f :: TOp PLeftParen :: join (map pr args) ++ [TOp PRightParen]
  | AIndex a i => par (S postfix_prec) a (pr a) ++ TOp PLeftSquare :: pr i ++ [TOp PRightSquare]
  | AMember e m => par (S postfix_prec) e (pr e) ++ [TOp PDot; TIdent m]
  | AUn o e => TOp (un_sym o) :: par (S unary_prec) e (pr e)
  | ACast e t => par (S cast_prec) e (pr e) ++ TOp PCast :: prt t
  | ABin o a b => par (S (op_prec o)) a (pr a) ++ TOp (op_sym o) :: par (S (S (op_prec o))) b (pr b)
  | ATern c t f => par 1 c (pr c) ++ TOp PQuestion :: pr t ++ TOp PColon :: par 1 f (pr f)
  end
with prt (t : atype) : list token :=
  match t with
  | YScalar s => [scalar_tok s]
  | YF32 => [TKw KF32] | YF64 => [TKw KF64] | YBool => [TKw KBool]
  | YRef n args => TIdent n :: match args with [] => [] | _ => TOp PLeftParen :: join (map pr args) ++ [TOp PRightParen] end
  | YEnum rep items => TKw KEnum :: scalar_tok rep :: TOp PLeftCurly :: join (map (fun x => TIdent (fst x) :: prv (snd x)) items) ++ [TOp PRightCurly]
  | YBits rep items => TKw KBitfield :: scalar_tok rep :: TOp PLeftCurly ::
      join (map (fun x => TIdent (fst x) :: match snd x with Some e => TOp PEqual :: pr e | None => [] end) items) ++ [TOp PRightCurly]
  | YCont len flags items => TKw KContainer :: match len with Some e => TOp PLeftSquare :: pr e ++ [TOp PRightSquare] | None => [] end ++
      words_flags flags ++ TOp PLeftCurly :: join (map pri items) ++ [TOp PRightCurly]
  | YArr t x len => prt t ++ TOp PLeftSquare :: ((if x then [TOp PDotDot] else []) ++ match len with Some e => pr e | None => [] end) ++ [TOp PRightSquare]
  end
with prv (v : aenum) : list token :=
  match v with VNone => [] | VDefault => [TOp PEqual; TKw KDefault] | VExpr e => TOp PEqual :: pr e end
with pri (i : aitem) : list token :=
  match i with
  | IPad e => TOp PDot :: TIdent (bs "pad") :: TOp PColon :: pr e
  | IField n f => TIdent n :: TOp PColon :: prf f
  end
with prf (f : afield) : list token :=
  match f with
  | AField t calc flags cond xs => prt t ++ match calc with Some e => TOp PEqual :: pr e | None => [] end ++ words_flags flags ++
      match cond with Some e => TOp PLeftCurly :: pr e ++ [TOp PRightCurly] | None => [] end ++ concat (map prx xs)
  end
with prx (x : axform) : list token :=
  match x with
  | AXform n args cond => TOp PArrow :: TIdent n :: match args with [] => [] | _ => TOp PLeftParen :: join (map pr args) ++ [TOp PRightParen] end ++
      match cond with Some e => TOp PLeftCurly :: pr e ++ [TOp PRightCurly] | None => [] end
  end.
Definition print_targ (a : targ) : list token :=
  TIdent (ta_name a) :: TOp PColon :: prt (ta_type a) ++ match ta_default a with Some e => TOp PQuestion :: pr e | None => [] end.
Definition print_decl (d : adecl) : list token :=
  match d with
  | DType n args f => TKw KType :: TIdent n :: match args with [] => [] | _ => TOp PLeftParen :: join (map print_targ args) ++ [TOp PRightParen] end ++ TOp PEqual :: prf f
  | DImport items from => TKw KImport :: join (map words_import items) ++ [TKw KFrom; TStr from]
  | DFfi n k => [TKw KImportFfi; TIdent n; TKw KAs; TKw (ffi_word k)]
  | DConst n t v => TKw KConst :: TIdent n :: TOp PColon :: prt t ++ TOp PEqual :: pr v
  end.
Definition print_program (p : aprogram) : list token := flat_map (fun d => print_decl d ++ [TOp PSemicolon]) p.

(** Trees with a concrete syntax: one-byte scalars have no byte order; an array has a length or is
    expandable; an enum or bitfield has an item and its first item a value; a calculated field has no flags. *)
Definition ok_scalar (s : escalar) : bool := match scalar_word s with Some _ => true | None => false end.
Definition ok_opt {A} (f : A -> bool) (o : option A) : bool := match o with Some a => f a | None => true end.
Fixpoint ok_e (e : aexpr) : bool :=
  match e with
  | AInt _ _ | AStr _ | ABool _ | ARef _ | AEnumAccess _ _ => true
  | ACall _ args => forallb ok_e args
  | AIndex a i => ok_e a && ok_e i
  | AMember e _ => ok_e e
  | AUn _ e => ok_e e
  | ACast e t => ok_e e && ok_t t
  | ABin _ a b => ok_e a && ok_e b
  | ATern c t f => ok_e c && ok_e t && ok_e f
  end
with ok_t (t : atype) : bool :=
  match t with
  | YScalar s => ok_scalar s
  | YF32 | YF64 | YBool => true
  | YRef _ args => forallb ok_e args
  | YEnum rep items => ok_scalar rep && match items with [] => false | (_, VNone) :: _ => false | _ => true end && forallb (fun x => ok_v (snd x)) items
  | YBits rep items => ok_scalar rep && match items with [] => false | (_, None) :: _ => false | _ => true end && forallb (fun x => match snd x with Some e => ok_e e | None => true end) items
  | YCont len _ items => match len with Some e => ok_e e | None => true end && forallb ok_i items
  | YArr t x len => ok_t t && match len with Some e => ok_e e | None => x end
  end
with ok_v (v : aenum) : bool := match v with VExpr e => ok_e e | _ => true end
with ok_i (i : aitem) : bool := match i with IPad e => ok_e e | IField _ f => ok_f f end
with ok_f (f : afield) : bool :=
  match f with
  | AField t calc flags cond xs => ok_t t && match calc with Some e => ok_e e && match flags with [] => true | _ => false end | None => true end &&
      match cond with Some e => ok_e e | None => true end && forallb ok_x xs
  end
with ok_x (x : axform) : bool := match x with AXform _ args cond => forallb ok_e args && match cond with Some e => ok_e e | None => true end end.
Definition ok_targ (a : targ) : bool := ok_t (ta_type a) && ok_opt ok_e (ta_default a).
Definition ok_decl (d : adecl) : bool :=
  match d with
  | DType _ args f => forallb ok_targ args && ok_f f
  | DImport items _ => match items with [] => false | _ => true end
  | DFfi _ _ => true
  | DConst _ t v => ok_t t && ok_e v
  end.
Definition ok_program (p : aprogram) : bool := forallb ok_decl p.
