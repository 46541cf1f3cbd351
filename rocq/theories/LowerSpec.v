(** The two models of expressions, side by side: for C24. *)
From Verif Require Import Base Scalar ConstInt EnumBits Expr KindSpec Tokens Ast Parse Front ConstSpec.
Open Scope string_scope. Open Scope Z_scope. Open Scope list_scope.

Definition uop (o : Ast.unop) : Expr.unop := match o with UNegate => Expr.UNeg | Ast.UNot => Expr.UNot | Ast.UBitNot => Expr.UBitNot end.
(** [lowers chk e e']: the expression [e] of an analysed program, of which the code generator uses the names as [nm] spells them, is the expression [e'] of
    the generator's model (Expr.v), in which a variant carries its evaluated value (compiler/mod.rs:480-509) instead of its expression. *)
Section Lower.
  Variable nm : name -> string.
  Variable chk : bool.
  Inductive lowers : fexpr -> expr -> Prop :=
  | l_bin o l r l' r' : lowers l l' -> lowers r r' -> lowers (FBin o l r) (EBin (bop o) l' r')
  | l_un o e e' : lowers e e' -> lowers (FUn o e) (EUn (uop o) e')
  | l_cast e e' s : lowers e e' -> lowers (FCast e (FScalar s)) (ECast e' (TyScalar s))
  | l_enum f v c d z : feval chk c = Ok (Some (CInt (CI (es_scalar (en_rep d)) z))) -> lookup (nm v) (en_items d) = Some (Some z) -> lowers (FAccess f v c) (EEnum d (nm v) z)
  | l_flag f v c d z : feval chk c = Ok (Some (CInt (CI (es_scalar (bf_rep d)) z))) -> lookup (nm v) (bf_items d) = Some z -> lowers (FAccess f v c) (EFlag d (nm v) z)
  | l_int c : lowers (FInt c) (EInt c)
  | l_const x t v t' v' : lowers v v' -> lowers (FConst x t v) (EConst (nm x) t' v')
  | l_str s : lowers (FStr s) (EStr s)
  | l_tern c a b c' a' b' : lowers c c' -> lowers a a' -> lowers b b' -> lowers (FTern c a b) (ETern c' a' b')
  | l_bool b : lowers (FBoolean b) (EBool b).
End Lower.
