(** The concrete syntax, as a grammar: which token sequences write which tree.
    This is the specification of the parser; it does not mention the parser. *)
From Verif Require Import Base Scalar Tokens Ast.
Open Scope list_scope.

(** Operators, their tokens and how tightly they bind (loosest first). *)
Definition op_sym (o : binop) : op :=
  match o with
  | BOr => POr | BAnd => PAnd | BBitOr => PBitOr | BBitXor => PBitXor | BBitAnd => PBitAnd
  | BEq => PEq | BNe => PNe | BLt => PLt | BLte => PLtEq | BGt => PGt | BGte => PGtEq
  | BShl => PShl | BShr => PShr | BShrSigned => PShrSigned | BAdd => PPlus | BSub => PMinus
  | BMul => PMul | BDiv => PDiv | BMod => PMod | BElvis => PElvis
  end.
Definition op_prec (o : binop) : nat :=
  match o with
  | BOr => 0 | BAnd => 1 | BBitOr => 2 | BBitXor => 3 | BBitAnd => 4
  | BEq | BNe => 5 | BLt | BLte | BGt | BGte => 6 | BShl | BShr | BShrSigned => 7
  | BAdd | BSub => 8 | BMul | BDiv | BMod => 9 | BElvis => 10
  end%nat.
Definition un_sym (o : unop) : op := match o with UNegate => PMinus | UNot => PNot | UBitNot => PBitNot end.
(** A cast binds like [?:]; then come unary operators, postfix operators and primaries. *)
Definition cast_prec := 10%nat.
Definition unary_prec := 11%nat.
Definition postfix_prec := 12%nat.
Definition primary_prec := 13%nat.

(** The keyword of a scalar type; the one-byte types have no little-endian form. *)
Definition scalar_word (s : escalar) : option kw :=
  match es_scalar s, es_endian s with
  | U8, Big => Some KU8 | U16, Big => Some KU16 | U32, Big => Some KU32 | U64, Big => Some KU64 | U128, Big => Some KU128
  | I8, Big => Some KI8 | I16, Big => Some KI16 | I32, Big => Some KI32 | I64, Big => Some KI64 | I128, Big => Some KI128
  | U16, Little => Some KU16Le | U32, Little => Some KU32Le | U64, Little => Some KU64Le | U128, Little => Some KU128Le
  | I16, Little => Some KI16Le | I32, Little => Some KI32Le | I64, Little => Some KI64Le | I128, Little => Some KI128Le
  | U8, Little | I8, Little => None
  end.
Definition words_flags (fs : list name) : list token := flat_map (fun f => [TOp PPlus; TIdent f]) fs.

(** [g_expr e ts]: [ts] is a way to write [e].
    [g_at l e ts]: [ts] is a way to write [e] where an operand binding at least as tightly as level [l] is wanted. *)
Inductive g_expr : aexpr -> list token -> Prop :=
| ge_at e ts : g_at 0 e ts -> g_expr e ts
| ge_ternary c t f tc tt tf : g_at 0 c tc -> g_expr t tt -> g_at 0 f tf ->
    g_expr (ATern c t f) (tc ++ TOp PQuestion :: tt ++ TOp PColon :: tf)
with g_at : nat -> aexpr -> list token -> Prop :=
| ga_tighter l e ts : (l < primary_prec)%nat -> g_at (S l) e ts -> g_at l e ts
| ga_binary l o a b ta tb : op_prec o = l -> g_at l a ta -> g_at (S l) b tb -> g_at l (ABin o a b) (ta ++ TOp (op_sym o) :: tb)
| ga_cast e t te tt : g_at cast_prec e te -> g_type t tt -> g_at cast_prec (ACast e t) (te ++ TOp PCast :: tt)
| ga_unary o e te : g_at unary_prec e te -> g_at unary_prec (AUn o e) (TOp (un_sym o) :: te)
| ga_index a i ta ti : g_at postfix_prec a ta -> g_expr i ti ->
    g_at postfix_prec (AIndex a i) (ta ++ TOp PLeftSquare :: ti ++ [TOp PRightSquare])
| ga_member e m te : g_at postfix_prec e te -> g_at postfix_prec (AMember e m) (te ++ [TOp PDot; TIdent m])
| ga_int v : g_at primary_prec (AInt v None) [TInt v]
| ga_int_typed v s k : scalar_word s = Some k -> g_at primary_prec (AInt v (Some (es_scalar s))) [TInt v; TKw k]
| ga_str s : g_at primary_prec (AStr s) [TStr s]
| ga_true : g_at primary_prec (ABool true) [TKw KTrue]
| ga_false : g_at primary_prec (ABool false) [TKw KFalse]
| ga_ref n : g_at primary_prec (ARef n) [TIdent n]
| ga_enum n v : g_at primary_prec (AEnumAccess n v) [TIdent n; TOp PDoubleColon; TIdent v]
| ga_call f args ts : g_args args ts -> g_at primary_prec (ACall f args) (TIdent f :: TOp PLeftParen :: ts ++ [TOp PRightParen])
| ga_paren e ts : g_expr e ts -> g_at primary_prec e (TOp PLeftParen :: ts ++ [TOp PRightParen])
(** a comma-separated list; the last comma is optional *)
with g_args : list aexpr -> list token -> Prop :=
| gs_nil : g_args [] []
| gs_one e te : g_expr e te -> g_args [e] te
| gs_cons e te es tes : g_expr e te -> g_args es tes -> g_args (e :: es) (te ++ TOp PComma :: tes)
(** an argument list that may be left out altogether *)
with g_argopt : list aexpr -> list token -> Prop :=
| go_none : g_argopt [] []
| go_some es ts : g_args es ts -> g_argopt es (TOp PLeftParen :: ts ++ [TOp PRightParen])
with g_type : atype -> list token -> Prop :=
| gt_scalar s k : scalar_word s = Some k -> g_type (YScalar s) [TKw k]
| gt_f32 : g_type YF32 [TKw KF32]
| gt_f64 : g_type YF64 [TKw KF64]
| gt_bool : g_type YBool [TKw KBool]
| gt_ref n args ts : g_argopt args ts -> g_type (YRef n args) (TIdent n :: ts)
| gt_enum rep k items ts : scalar_word rep = Some k -> g_enum true items ts ->
    g_type (YEnum rep items) (TKw KEnum :: TKw k :: TOp PLeftCurly :: ts ++ [TOp PRightCurly])
| gt_bits rep k items ts : scalar_word rep = Some k -> g_bits true items ts ->
    g_type (YBits rep items) (TKw KBitfield :: TKw k :: TOp PLeftCurly :: ts ++ [TOp PRightCurly])
| gt_cont len flags items tl ti : g_sqopt len tl -> g_items items ti ->
    g_type (YCont len flags items) (TKw KContainer :: tl ++ words_flags flags ++ TOp PLeftCurly :: ti ++ [TOp PRightCurly])
| gt_arr t tt x len tl : g_type t tt -> g_len x len tl ->
    g_type (YArr t x len) (tt ++ TOp PLeftSquare :: tl ++ [TOp PRightSquare])
with g_sqopt : option aexpr -> list token -> Prop :=
| gq_none : g_sqopt None []
| gq_some e te : g_expr e te -> g_sqopt (Some e) (TOp PLeftSquare :: te ++ [TOp PRightSquare])
(** an array length: [n], [..n] or [..], but not nothing *)
with g_len : bool -> option aexpr -> list token -> Prop :=
| gl_fixed e te : g_expr e te -> g_len false (Some e) te
| gl_upto e te : g_expr e te -> g_len true (Some e) (TOp PDotDot :: te)
| gl_any : g_len true None [TOp PDotDot]
(** enum and bitfield bodies: at least one item, the first with a value; the last comma is optional *)
with g_enum : bool -> list (name * aenum) -> list token -> Prop :=
| gn_one first n v tv : g_eval first v tv -> g_enum first [(n, v)] (TIdent n :: tv)
| gn_comma first n v tv : g_eval first v tv -> g_enum first [(n, v)] (TIdent n :: tv ++ [TOp PComma])
| gn_cons first n v tv its ti : g_eval first v tv -> g_enum false its ti -> g_enum first ((n, v) :: its) (TIdent n :: tv ++ TOp PComma :: ti)
with g_eval : bool -> aenum -> list token -> Prop :=
| gv_none : g_eval false VNone []
| gv_default first : g_eval first VDefault [TOp PEqual; TKw KDefault]
| gv_expr first e te : g_expr e te -> g_eval first (VExpr e) (TOp PEqual :: te)
with g_bits : bool -> list (name * option aexpr) -> list token -> Prop :=
| gb_one first n v tv : g_bval first v tv -> g_bits first [(n, v)] (TIdent n :: tv)
| gb_comma first n v tv : g_bval first v tv -> g_bits first [(n, v)] (TIdent n :: tv ++ [TOp PComma])
| gb_cons first n v tv its ti : g_bval first v tv -> g_bits false its ti -> g_bits first ((n, v) :: its) (TIdent n :: tv ++ TOp PComma :: ti)
with g_bval : bool -> option aexpr -> list token -> Prop :=
| gw_none : g_bval false None []
| gw_some first e te : g_expr e te -> g_bval first (Some e) (TOp PEqual :: te)
with g_items : list aitem -> list token -> Prop :=
| gi_nil : g_items [] []
| gi_one i ti : g_item i ti -> g_items [i] ti
| gi_cons i ti its tis : g_item i ti -> g_items its tis -> g_items (i :: its) (ti ++ TOp PComma :: tis)
with g_item : aitem -> list token -> Prop :=
| gm_pad e te : g_expr e te -> g_item (IPad e) (TOp PDot :: TIdent (bs "pad") :: TOp PColon :: te)
| gm_field n f tf : g_field f tf -> g_item (IField n f) (TIdent n :: TOp PColon :: tf)
(** Nothing separates a calculated clause from flags ("= a +b" is an addition), so a field has at most one of them. *)
with g_field : afield -> list token -> Prop :=
| gf_field t calc flags cond xs tt tcalc tcond txs :
    g_type t tt -> g_calc calc tcalc -> g_cond cond tcond -> g_xforms xs txs -> calc = None \/ flags = [] ->
    g_field (AField t calc flags cond xs) (tt ++ tcalc ++ words_flags flags ++ tcond ++ txs)
with g_calc : option aexpr -> list token -> Prop :=
| gc_none : g_calc None []
| gc_some e te : g_expr e te -> g_calc (Some e) (TOp PEqual :: te)
with g_cond : option aexpr -> list token -> Prop :=
| gd_none : g_cond None []
| gd_some e te : g_expr e te -> g_cond (Some e) (TOp PLeftCurly :: te ++ [TOp PRightCurly])
with g_xforms : list axform -> list token -> Prop :=
| gx_nil : g_xforms [] []
| gx_cons n args cond xs ta tc tx : g_argopt args ta -> g_cond cond tc -> g_xforms xs tx ->
    g_xforms (AXform n args cond :: xs) (TOp PArrow :: TIdent n :: ta ++ tc ++ tx).

(** type arguments: name : type, with an optional "? default" *)
Inductive g_targ : targ -> list token -> Prop :=
| gta_plain n t tt : g_type t tt -> g_targ {| ta_name := n; ta_type := t; ta_default := None |} (TIdent n :: TOp PColon :: tt)
| gta_default n t tt e te : g_type t tt -> g_expr e te ->
    g_targ {| ta_name := n; ta_type := t; ta_default := Some e |} (TIdent n :: TOp PColon :: tt ++ TOp PQuestion :: te).
Inductive g_targs : list targ -> list token -> Prop :=
| gts_nil : g_targs [] []
| gts_one a ta : g_targ a ta -> g_targs [a] ta
| gts_cons a ta l tl : g_targ a ta -> g_targs l tl -> g_targs (a :: l) (ta ++ TOp PComma :: tl).
Inductive g_targopt : list targ -> list token -> Prop :=
| gto_none : g_targopt [] []
| gto_some l tl : g_targs l tl -> g_targopt l (TOp PLeftParen :: tl ++ [TOp PRightParen]).
Definition words_import (x : name * option name) : list token :=
  match x with (n, None) => [TIdent n] | (n, Some a) => [TIdent n; TKw KAs; TIdent a] end.
(** imported items: at least one; the last comma is optional *)
Inductive g_imports : list (name * option name) -> list token -> Prop :=
| gim_one x : g_imports [x] (words_import x)
| gim_comma x : g_imports [x] (words_import x ++ [TOp PComma])
| gim_cons x l tl : g_imports l tl -> g_imports (x :: l) (words_import x ++ TOp PComma :: tl).
Definition ffi_word (k : ffi) : kw := match k with FTransform => KTransform | FType => KType | FFunction => KFunction end.
Inductive g_decl : adecl -> list token -> Prop :=
| gd_type n args targs f tf : g_targopt args targs -> g_field f tf ->
    g_decl (DType n args f) (TKw KType :: TIdent n :: targs ++ TOp PEqual :: tf)
| gd_import items ti from : g_imports items ti -> g_decl (DImport items from) (TKw KImport :: ti ++ [TKw KFrom; TStr from])
| gd_ffi n k : g_decl (DFfi n k) [TKw KImportFfi; TIdent n; TKw KAs; TKw (ffi_word k)]
| gd_const n t tt v tv : g_type t tt -> g_expr v tv ->
    g_decl (DConst n t v) (TKw KConst :: TIdent n :: TOp PColon :: tt ++ TOp PEqual :: tv).
(** a program: declarations, each closed by a semicolon *)
Inductive g_program : aprogram -> list token -> Prop :=
| gp_nil : g_program [] []
| gp_cons d td p tp : g_decl d td -> g_program p tp -> g_program (d :: p) (td ++ TOp PSemicolon :: tp).

(** Tokens that would make an expression before them longer. *)
Definition continues (t : token) : bool :=
  match t with
  | TOp (PQuestion | POr | PAnd | PBitOr | PBitXor | PBitAnd | PEq | PNe | PLt | PLtEq | PGt | PGtEq
        | PShl | PShr | PShrSigned | PPlus | PMinus | PMul | PDiv | PMod | PCast | PElvis
        | PLeftSquare | PDot | PLeftParen | PDoubleColon) => true
  | TKw (KU8 | KU16 | KU32 | KU64 | KU128 | KI8 | KI16 | KI32 | KI64 | KI128
        | KU16Le | KU32Le | KU64Le | KU128Le | KI16Le | KI32Le | KI64Le | KI128Le) => true
  | _ => false
  end.
