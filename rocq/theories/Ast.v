(** The abstract syntax tree.  Models protospec-build/src/ast/ (spans are dropped
    throughout: they are diagnostics only, and are treated in Tokens.v). *)
From Verif Require Import Base Scalar Tokens.
Open Scope list_scope.

(** ast/expression/ident.rs: an identifier is its text. *)
Definition name := list Z.
(** ast/expression/unary.rs:11-16. *)
Inductive unop := UNegate | UNot | UBitNot.
(** ast/expression/binary.rs:12-34. *)
Inductive binop := BLt | BGt | BLte | BGte | BEq | BNe | BOr | BAnd | BBitOr | BBitAnd | BBitXor | BShr | BShl | BShrSigned
| BAdd | BSub | BMul | BDiv | BMod | BElvis.

Inductive aexpr :=                                              (* ast/expression/mod.rs *)
| AInt (v : list Z) (ty : option scalar)                        (* int.rs *)
| AStr (s : list Z)                                             (* string.rs *)
| ABool (b : bool)                                              (* boolean.rs *)
| ARef (n : name)                                               (* ident.rs *)
| AEnumAccess (n v : name)                                      (* enum_access.rs *)
| ACall (f : name) (args : list aexpr)                          (* call.rs *)
| AIndex (a i : aexpr)                                          (* array_index.rs *)
| AMember (e : aexpr) (m : name)                                (* member.rs *)
| AUn (o : unop) (e : aexpr)                                    (* unary.rs *)
| ACast (e : aexpr) (t : atype)                                 (* cast.rs *)
| ABin (o : binop) (a b : aexpr)                                (* binary.rs *)
| ATern (c t f : aexpr)                                         (* ternary.rs *)
with atype :=                                                   (* ast/types/mod.rs RawType *)
| YScalar (s : escalar)
| YF32 | YF64 | YBool
| YRef (n : name) (args : list aexpr)                           (* type_ref.rs *)
| YEnum (rep : escalar) (items : list (name * aenum))           (* enum_.rs *)
| YBits (rep : escalar) (items : list (name * option aexpr))    (* bitfield.rs *)
| YCont (len : option aexpr) (flags : list name) (items : list aitem) (* container.rs *)
| YArr (t : atype) (expandable : bool) (len : option aexpr)     (* array.rs *)
with aenum := VNone | VDefault | VExpr (e : aexpr)              (* enum_.rs EnumValue *)
with aitem := IPad (e : aexpr) | IField (n : name) (f : afield) (* container.rs ContainerItem *)
with afield := AField (t : atype) (calc : option aexpr) (flags : list name) (cond : option aexpr) (xs : list axform)
with axform := AXform (n : name) (args : list aexpr) (cond : option aexpr).

(** ast/declaration/*.rs *)
Record targ := { ta_name : name; ta_type : atype; ta_default : option aexpr }.
Inductive ffi := FTransform | FType | FFunction.
Inductive adecl :=
| DType (n : name) (args : list targ) (f : afield)
| DImport (items : list (name * option name)) (from : list Z)
| DFfi (n : name) (k : ffi)
| DConst (n : name) (t : atype) (v : aexpr).
(** ast/program.rs *)
Definition aprogram := list adecl.
