(** The parser.  Models protospec-build/src/parser/.

    [TokenIter] (token_iter.rs) is the list of remaining tokens.  The Rust parser is a
    set of mutually recursive functions; here every function takes the recursive calls
    it makes as an argument [rec], and [parser] ties the knot with fuel.  ParseTotal
    proves that the fuel given by [parse_program] is always enough, so [Hang] is never
    an outcome. *)
From Verif Require Import Base Scalar Tokens Ast.
Open Scope list_scope.

(** parser/error.rs:6-25, without the texts.  [PTok] is the tokenizer's error. *)
Inductive perr := PEof | PUnexpected (t : token) | PEmptyLen | PDirective (n : name) | PEnumRep | PBitRep | PTok (pos : Z).
Notation pres A := (res perr (A * list token)).

Definition op_eq_dec (a b : op) : {a = b} + {a <> b}. Proof. decide equality. Defined.
Definition kw_eq_dec (a b : kw) : {a = b} + {a <> b}. Proof. decide equality. Defined.

(** token_iter.rs:51-58 [eat], for a punctuation token and for a keyword. *)
Definition eat (o : op) (ts : list token) : option (list token) :=
  match ts with TOp o' :: r => if op_eq_dec o o' then Some r else None | _ => None end.
Definition eatk (k : kw) (ts : list token) : option (list token) :=
  match ts with TKw k' :: r => if kw_eq_dec k k' then Some r else None | _ => None end.
(** token_iter.rs:60-67 [eat_any], returning the operator the caller's [match] maps the token to. *)
Fixpoint eat_any {A} (tab : list (op * A)) (ts : list token) : option (A * list token) :=
  match tab with
  | [] => None
  | (o, a) :: tab => match eat o ts with Some r => Some (a, r) | None => eat_any tab ts end
  end.
(** the error of [expect], [expect_oneof], [expect_ident], [expect_string] *)
Definition unexpected {A} (ts : list token) : res perr A :=
  match ts with [] => Err PEof | t :: _ => Err (PUnexpected t) end.
(** token_iter.rs:69-85 [expect]. *)
Definition expect (o : op) (ts : list token) : res perr (list token) :=
  match eat o ts with Some r => Ok r | None => unexpected ts end.
Definition expectk (k : kw) (ts : list token) : res perr (list token) :=
  match eatk k ts with Some r => Ok r | None => unexpected ts end.
(** token_iter.rs:109-133 [expect_ident]. *)
Definition expect_ident (ts : list token) : pres name :=
  match ts with TIdent n :: r => Ok (n, r) | _ => unexpected ts end.
(** token_iter.rs:135-157 [expect_string]. *)
Definition expect_string (ts : list token) : pres (list Z) :=
  match ts with TStr n :: r => Ok (n, r) | _ => unexpected ts end.
(** token_iter.rs:34-39 [peek_token]. *)
Definition peek_token (o : op) (ts : list token) : res perr bool :=
  match ts with [] => Err PEof | _ => Ok (match eat o ts with Some _ => true | None => false end) end.
Definition peek_kw (k : kw) (ts : list token) : res perr bool :=
  match ts with [] => Err PEof | _ => Ok (match eatk k ts with Some _ => true | None => false end) end.

(** types/scalar.rs:3-61 [parse_scalar_type]. *)
Definition scalar_kw (k : kw) : option escalar :=
  match k with
  | KI8 => Some {| es_scalar := I8; es_endian := Big |} | KI16 => Some {| es_scalar := I16; es_endian := Big |}
  | KI32 => Some {| es_scalar := I32; es_endian := Big |} | KI64 => Some {| es_scalar := I64; es_endian := Big |}
  | KI128 => Some {| es_scalar := I128; es_endian := Big |}
  | KU8 => Some {| es_scalar := U8; es_endian := Big |} | KU16 => Some {| es_scalar := U16; es_endian := Big |}
  | KU32 => Some {| es_scalar := U32; es_endian := Big |} | KU64 => Some {| es_scalar := U64; es_endian := Big |}
  | KU128 => Some {| es_scalar := U128; es_endian := Big |}
  | KI16Le => Some {| es_scalar := I16; es_endian := Little |} | KI32Le => Some {| es_scalar := I32; es_endian := Little |}
  | KI64Le => Some {| es_scalar := I64; es_endian := Little |} | KI128Le => Some {| es_scalar := I128; es_endian := Little |}
  | KU16Le => Some {| es_scalar := U16; es_endian := Little |} | KU32Le => Some {| es_scalar := U32; es_endian := Little |}
  | KU64Le => Some {| es_scalar := U64; es_endian := Little |} | KU128Le => Some {| es_scalar := U128; es_endian := Little |}
  | _ => None
  end.
Definition parse_scalar (ts : list token) : option (escalar * list token) :=
  match ts with TKw k :: r => match scalar_kw k with Some s => Some (s, r) | None => None end | _ => None end.

(** The functions of the parser, with what each returns. *)
Inductive sym :=
| NExpr                        (* parse_expression *)
| NBin (l : nat)               (* parse_or_expression (0) ... parse_multiply_expression (9), parse_cast_expression (10) *)
| NBinL (l : nat) (e : aexpr)  (* the while loop of NBin l, with the expression built so far *)
| NCastL (e : aexpr)           (* the while loop of parse_cast_expression *)
| NUn                          (* parse_unary_expression *)
| NPost                        (* parse_array_index_expression *)
| NPostL (e : aexpr)           (* its while loop *)
| NPrim                        (* parse_primary_expression *)
| NArgs                        (* the loop of parse_arguments, after the "(" *)
| NFlags                       (* parse_flags *)
| NType                        (* parse_type *)
| NTypeL (t : atype)           (* its while loop *)
| NEnum (first : bool)         (* the loop of parse_enum *)
| NBits (first : bool)         (* the loop of parse_bitfield *)
| NItems                       (* the loop of parse_container *)
| NField                       (* parse_field *)
| NXforms                      (* the transforms loop of parse_field_components *)
| NTArgs                       (* the argument loop of parse_type_declaration, after the "(" *)
| NImports                     (* the loop of parse_import_declaration *)
| NDecl                        (* parse_declaration *)
| NProgram.                    (* parse_program *)
Definition out (s : sym) : Type :=
  match s with
  | NExpr | NBin _ | NBinL _ _ | NCastL _ | NUn | NPost | NPostL _ | NPrim => aexpr
  | NArgs => list aexpr
  | NFlags => list name
  | NType | NTypeL _ => atype
  | NEnum _ => list (name * aenum)
  | NBits _ => list (name * option aexpr)
  | NItems => list aitem
  | NField => afield
  | NXforms => list axform
  | NTArgs => list targ
  | NImports => list (name * option name)
  | NDecl => adecl
  | NProgram => aprogram
  end.
Definition recs := forall s : sym, list token -> pres (out s).

(** The operators of each level: or.rs:5, and.rs:5, bit_or.rs:5, bit_xor.rs:5, bit_and.rs:5,
    eq.rs:5-11, rel.rs:5-15, shift.rs:5-14, add.rs:5-11, multiply.rs:5-14. *)
Definition level_ops (l : nat) : list (op * binop) :=
  match l with
  | 0 => [(POr, BOr)]
  | 1 => [(PAnd, BAnd)]
  | 2 => [(PBitOr, BBitOr)]
  | 3 => [(PBitXor, BBitXor)]
  | 4 => [(PBitAnd, BBitAnd)]
  | 5 => [(PEq, BEq); (PNe, BNe)]
  | 6 => [(PLt, BLt); (PLtEq, BLte); (PGt, BGt); (PGtEq, BGte)]
  | 7 => [(PShl, BShl); (PShr, BShr); (PShrSigned, BShrSigned)]
  | 8 => [(PPlus, BAdd); (PMinus, BSub)]
  | 9 => [(PMul, BMul); (PDiv, BDiv); (PMod, BMod)]
  | _ => []
  end%nat.

Section Functions.
Variable rec : recs.

(** expression/mod.rs:45-60 [parse_expression]. *)
Definition p_expr (ts : list token) : pres aexpr :=
  let! (c, ts) := rec (NBin 0) ts in
  match eat PQuestion ts with
  | Some ts =>
      let! (t, ts) := rec NExpr ts in
      let! ts := expect PColon ts in
      let! (f, ts) := rec (NBin 0) ts in
      Ok (ATern c t f, ts)
  | None => Ok (c, ts)
  end.
(** or.rs:3-15, and.rs:3-15, bit_or.rs:3-15, bit_xor.rs:3-15, bit_and.rs:3-15, eq.rs:3-19, rel.rs:3-23,
    shift.rs:3-22, add.rs:3-19, multiply.rs:3-22: the same loop over [level_ops];
    cast.rs:3-28 below them. *)
Definition p_bin (l : nat) (ts : list token) : pres aexpr :=
  if (l <? 10)%nat then let! (e, ts) := rec (NBin (S l)) ts in (rec (NBinL l e) ts : pres aexpr)
  else let! (e, ts) := rec NUn ts in (rec (NCastL e) ts : pres aexpr).
Definition p_bin_loop (l : nat) (e : aexpr) (ts : list token) : pres aexpr :=
  match eat_any (level_ops l) ts with
  | Some (o, ts) => let! (r, ts) := rec (NBin (S l)) ts in (rec (NBinL l (ABin o e r)) ts : pres aexpr)
  | None => Ok (e, ts)
  end.
(** cast.rs:5-25. *)
Definition p_cast_loop (e : aexpr) (ts : list token) : pres aexpr :=
  match eat_any [(PCast, true); (PElvis, false)] ts with
  | Some (true, ts) => let! (t, ts) := rec NType ts in (rec (NCastL (ACast e t)) ts : pres aexpr)
  | Some (false, ts) => let! (r, ts) := rec NUn ts in (rec (NCastL (ABin BElvis e r)) ts : pres aexpr)
  | None => Ok (e, ts)
  end.
(** unary.rs:3-22 [parse_unary_expression]: collect the operators, then apply them innermost last. *)
Definition un_tok (t : token) : option unop :=
  match t with TOp PNot => Some UNot | TOp PMinus => Some UNegate | TOp PBitNot => Some UBitNot | _ => None end.
Fixpoint take_un (ts : list token) : list unop * list token :=
  match ts with
  | t :: r => match un_tok t with Some o => (o :: fst (take_un r), snd (take_un r)) | None => ([], ts) end
  | [] => ([], [])
  end.
Definition p_un (ts : list token) : pres aexpr :=
  let (ops, ts) := take_un ts in
  let! (e, ts) := rec NPost ts in
  Ok (fold_left (fun e o => AUn o e) (rev ops) e, ts).
(** array_index.rs:3-30 [parse_array_index_expression], with its second loop (line 28). *)
Fixpoint skip_sq (ts : list token) : list token :=
  match ts with TOp PLeftSquare :: r => skip_sq r | _ => ts end.
Definition p_post (ts : list token) : pres aexpr :=
  let! (e, ts) := rec NPrim ts in
  let! (e, ts) := (rec (NPostL e) ts : pres aexpr) in
  Ok (e, skip_sq ts).
Definition p_post_loop (e : aexpr) (ts : list token) : pres aexpr :=
  match eat_any [(PLeftSquare, true); (PDot, false)] ts with
  | Some (true, ts) => let! (i, ts) := rec NExpr ts in let! ts := expect PRightSquare ts in (rec (NPostL (AIndex e i)) ts : pres aexpr)
  | Some (false, ts) => let! (m, ts) := expect_ident ts in (rec (NPostL (AMember e m)) ts : pres aexpr)
  | None => Ok (e, ts)
  end.
(** mod.rs:31-49 [parse_arguments]; [p_args] is its loop. *)
Definition p_args (ts : list token) : pres (list aexpr) :=
  match eat PRightParen ts with
  | Some ts => Ok ([], ts)
  | None =>
      let! (e, ts) := rec NExpr ts in
      match eat PComma ts with
      | Some ts => let! (es, ts) := rec NArgs ts in Ok (e :: es, ts)
      | None => let! ts := expect PRightParen ts in Ok ([e], ts)
      end
  end.
Definition p_arguments (ts : list token) : pres (list aexpr) :=
  match eat PLeftParen ts with Some ts => rec NArgs ts | None => Ok ([], ts) end.
(** primary.rs:3-49 [parse_primary_expression]. *)
Definition p_prim (ts : list token) : pres aexpr :=
  match ts with
  | [] => Err PEof
  | TInt v :: ts =>
      match parse_scalar ts with Some (s, ts) => Ok (AInt v (Some (es_scalar s)), ts) | None => Ok (AInt v None, ts) end
  | TStr s :: ts => Ok (AStr s, ts)
  | TKw KTrue :: ts => Ok (ABool true, ts)
  | TKw KFalse :: ts => Ok (ABool false, ts)
  | TIdent n :: ts =>
      match eat PDoubleColon ts with
      | Some ts => let! (v, ts) := expect_ident ts in Ok (AEnumAccess n v, ts)
      | None =>
          let! b := peek_token PLeftParen ts in
          if b then let! (args, ts) := p_arguments ts in Ok (ACall n args, ts) else Ok (ARef n, ts)
      end
  | TOp PLeftParen :: ts => let! (e, ts) := rec NExpr ts in let! ts := expect PRightParen ts in Ok (e, ts)
  | t :: _ => Err (PUnexpected t)
  end.
(** mod.rs:51-57 [parse_flags]. *)
Definition p_flags (ts : list token) : pres (list name) :=
  match eat PPlus ts with
  | Some ts => let! (n, ts) := expect_ident ts in let! (ns, ts) := rec NFlags ts in Ok (n :: ns, ts)
  | None => Ok ([], ts)
  end.
(** types/array.rs:3-24 [parse_length_constraint]. *)
Definition p_len (ts : list token) : pres (bool * option aexpr) :=
  let (start, ts) := match eat PDotDot ts with Some ts => (true, ts) | None => (false, ts) end in
  let! close := peek_token PRightSquare ts in
  let! (e, ts) := (if close : bool then Ok (None, ts) else let! (e, ts) := rec NExpr ts in Ok (Some e, ts)) in
  match start, e with
  | false, None => Err PEmptyLen
  | _, _ => Ok ((start, e), ts)
  end.
(** types/container.rs:3-59 [parse_container]; [p_items] is its loop. *)
Definition pad_name : name := bs "pad".
Definition p_items (ts : list token) : pres (list aitem) :=
  let! close := peek_token PRightCurly ts in
  if close : bool then Ok ([], ts) else
  let! (it, ts) :=
    match eat PDot ts with
    | Some ts =>
        let! (d, ts) := expect_ident ts in
        if eqbl d pad_name then let! ts := expect PColon ts in let! (e, ts) := rec NExpr ts in Ok (IPad e, ts)
        else Err (PDirective d)
    | None =>
        let! (n, ts) := expect_ident ts in
        let! ts := expect PColon ts in
        let! (f, ts) := rec NField ts in
        Ok (IField n f, ts)
    end in
  match eat PComma ts with
  | Some ts => let! (its, ts) := rec NItems ts in Ok (it :: its, ts)
  | None => Ok ([it], ts)
  end.
Definition p_container (ts : list token) : pres atype :=
  let! ts := expectk KContainer ts in
  let! (len, ts) :=
    match eat PLeftSquare ts with
    | Some ts => let! (e, ts) := rec NExpr ts in let! ts := expect PRightSquare ts in Ok (Some e, ts)
    | None => Ok (None, ts)
    end in
  let! (flags, ts) := rec NFlags ts in
  let! ts := expect PLeftCurly ts in
  let! (items, ts) := rec NItems ts in
  let! ts := expect PRightCurly ts in
  Ok (YCont len flags items, ts).
(** types/enum_.rs:3-45 [parse_enum]; [first] is [items.is_empty()]. *)
Definition p_enum_value (first : bool) (ts : list token) : pres aenum :=
  let! (has, ts) :=
    (if first then let! ts := expect PEqual ts in Ok (true, ts)
     else match eat PEqual ts with Some ts => Ok (true, ts) | None => Ok (false, ts) end) in
  if has : bool then
    match eatk KDefault ts with
    | Some ts => Ok (VDefault, ts)
    | None => let! (e, ts) := rec NExpr ts in Ok (VExpr e, ts)
    end
  else Ok (VNone, ts).
Definition p_enum_loop (first : bool) (ts : list token) : pres (list (name * aenum)) :=
  let! (n, ts) := expect_ident ts in
  let! (v, ts) := p_enum_value first ts in
  match eat PComma ts with
  | None => Ok ([(n, v)], ts)
  | Some ts =>
      let! close := peek_token PRightCurly ts in
      if close : bool then Ok ([(n, v)], ts)
      else let! (its, ts) := rec (NEnum false) ts in Ok ((n, v) :: its, ts)
  end.
Definition p_enum (ts : list token) : pres atype :=
  let! ts := expectk KEnum ts in
  match parse_scalar ts with
  | None => Err PEnumRep
  | Some (rep, ts) =>
      let! ts := expect PLeftCurly ts in
      let! (items, ts) := rec (NEnum true) ts in
      let! ts := expect PRightCurly ts in
      Ok (YEnum rep items, ts)
  end.
(** types/bitfield.rs:3-41 [parse_bitfield]. *)
Definition p_bits_loop (first : bool) (ts : list token) : pres (list (name * option aexpr)) :=
  let! (n, ts) := expect_ident ts in
  let! (v, ts) :=
    (if first then let! ts := expect PEqual ts in let! (e, ts) := rec NExpr ts in Ok (Some e, ts)
     else match eat PEqual ts with Some ts => let! (e, ts) := rec NExpr ts in Ok (Some e, ts) | None => Ok (None, ts) end) in
  match eat PComma ts with
  | None => Ok ([(n, v)], ts)
  | Some ts =>
      let! close := peek_token PRightCurly ts in
      if close : bool then Ok ([(n, v)], ts)
      else let! (its, ts) := rec (NBits false) ts in Ok ((n, v) :: its, ts)
  end.
Definition p_bits (ts : list token) : pres atype :=
  let! ts := expectk KBitfield ts in
  match parse_scalar ts with
  | None => Err PBitRep
  | Some (rep, ts) =>
      let! ts := expect PLeftCurly ts in
      let! (items, ts) := rec (NBits true) ts in
      let! ts := expect PRightCurly ts in
      Ok (YBits rep items, ts)
  end.
(** types/mod.rs:18-75 [parse_type]. *)
Definition p_raw (ts : list token) : pres atype :=
  match ts with
  | [] => Err PEof
  | TKw KContainer :: _ => p_container ts
  | TKw KEnum :: _ => p_enum ts
  | TKw KBitfield :: _ => p_bits ts
  | t :: r =>
      match parse_scalar ts with
      | Some (s, ts) => Ok (YScalar s, ts)
      | None =>
          match t with
          | TKw KF32 => Ok (YF32, r)
          | TKw KF64 => Ok (YF64, r)
          | TKw KBool => Ok (YBool, r)
          | TIdent n => let! (args, ts) := p_arguments r in Ok (YRef n args, ts)
          | _ => Err (PUnexpected t)
          end
      end
  end.
Definition p_type (ts : list token) : pres atype := let! (t, ts) := p_raw ts in (rec (NTypeL t) ts : pres atype).
Definition p_type_loop (t : atype) (ts : list token) : pres atype :=
  match eat PLeftSquare ts with
  | Some ts =>
      let! ((x, len), ts) := p_len ts in
      let! ts := expect PRightSquare ts in
      (rec (NTypeL (YArr t x len)) ts : pres atype)
  | None => Ok (t, ts)
  end.
(** field.rs:35-43 [parse_conditional_clause]. *)
Definition p_cond (ts : list token) : pres (option aexpr) :=
  match eat PLeftCurly ts with
  | Some ts => let! (e, ts) := rec NExpr ts in let! ts := expect PRightCurly ts in Ok (Some e, ts)
  | None => Ok (None, ts)
  end.
(** field.rs:45-52 [parse_calculated_clause]. *)
Definition p_calc (ts : list token) : pres (option aexpr) :=
  match eat PEqual ts with Some ts => let! (e, ts) := rec NExpr ts in Ok (Some e, ts) | None => Ok (None, ts) end.
(** field.rs:63-90, one turn of the transforms loop. *)
Definition p_xforms (ts : list token) : pres (list axform) :=
  match eat PArrow ts with
  | Some ts =>
      let! (n, ts) := expect_ident ts in
      let! (args, ts) := p_arguments ts in
      let! (c, ts) := p_cond ts in
      let! (xs, ts) := rec NXforms ts in
      Ok (AXform n args c :: xs, ts)
  | None => Ok ([], ts)
  end.
(** field.rs:3-26 [parse_field] and 54-99 [parse_field_components]. *)
Definition p_field (ts : list token) : pres afield :=
  let! (t, ts) := rec NType ts in
  let! (calc, ts) := p_calc ts in
  let! (flags, ts) := rec NFlags ts in
  let! (c, ts) := p_cond ts in
  let! (xs, ts) := rec NXforms ts in
  Ok (AField t calc flags c xs, ts).
(** declaration/type_declaration.rs:8-28, the argument loop. *)
Definition p_targs (ts : list token) : pres (list targ) :=
  match eat PRightParen ts with
  | Some ts => Ok ([], ts)
  | None =>
      let! (n, ts) := expect_ident ts in
      let! ts := expect PColon ts in
      let! (t, ts) := rec NType ts in
      let! (d, ts) := match eat PQuestion ts with
                      | Some ts => let! (e, ts) := rec NExpr ts in Ok (Some e, ts)
                      | None => Ok (None, ts) end in
      let a := {| ta_name := n; ta_type := t; ta_default := d |} in
      match eat PComma ts with
      | None => let! ts := expect PRightParen ts in Ok ([a], ts)
      | Some ts => let! (l, ts) := rec NTArgs ts in Ok (a :: l, ts)
      end
  end.
(** declaration/type_declaration.rs:3-40 [parse_type_declaration]. *)
Definition p_type_decl (ts : list token) : pres adecl :=
  let! ts := expectk KType ts in
  let! (n, ts) := expect_ident ts in
  let! (args, ts) := match eat PLeftParen ts with Some ts => rec NTArgs ts | None => Ok ([], ts) end in
  let! ts := expect PEqual ts in
  let! (f, ts) := rec NField ts in
  Ok (DType n args f, ts).
(** declaration/import_declaration.rs:3-37 [parse_import_declaration]. *)
Definition p_imports (ts : list token) : pres (list (name * option name)) :=
  let! (n, ts) := expect_ident ts in
  let! (a, ts) := match eatk KAs ts with
                  | Some ts => let! (a, ts) := expect_ident ts in Ok (Some a, ts)
                  | None => Ok (None, ts) end in
  match eat PComma ts with
  | None => Ok ([(n, a)], ts)
  | Some ts =>
      let! from := peek_kw KFrom ts in
      if from : bool then Ok ([(n, a)], ts) else let! (l, ts) := rec NImports ts in Ok ((n, a) :: l, ts)
  end.
Definition p_import_decl (ts : list token) : pres adecl :=
  let! ts := expectk KImport ts in
  let! (items, ts) := rec NImports ts in
  let! ts := expectk KFrom ts in
  let! (from, ts) := expect_string ts in
  Ok (DImport items from, ts).
(** declaration/ffi_declaration.rs:3-19 [parse_ffi_declaration]. *)
Definition p_ffi_decl (ts : list token) : pres adecl :=
  let! ts := expectk KImportFfi ts in
  let! (n, ts) := expect_ident ts in
  let! ts := expectk KAs ts in
  match eatk KTransform ts, eatk KType ts, eatk KFunction ts with
  | Some ts, _, _ => Ok (DFfi n FTransform, ts)
  | _, Some ts, _ => Ok (DFfi n FType, ts)
  | _, _, Some ts => Ok (DFfi n FFunction, ts)
  | _, _, _ => unexpected ts
  end.
(** declaration/const_declaration.rs:3-17 [parse_const_declaration]. *)
Definition p_const_decl (ts : list token) : pres adecl :=
  let! ts := expectk KConst ts in
  let! (n, ts) := expect_ident ts in
  let! ts := expect PColon ts in
  let! (t, ts) := rec NType ts in
  let! ts := expect PEqual ts in
  let! (v, ts) := rec NExpr ts in
  Ok (DConst n t v, ts).
(** declaration/mod.rs:15-30 [parse_declaration]. *)
Definition p_decl (ts : list token) : pres adecl :=
  let! (d, ts) :=
    match ts with
    | [] => Err PEof
    | TKw KType :: _ => p_type_decl ts
    | TKw KImport :: _ => p_import_decl ts
    | TKw KImportFfi :: _ => p_ffi_decl ts
    | TKw KConst :: _ => p_const_decl ts
    | t :: _ => Err (PUnexpected t)
    end in
  let! ts := expect PSemicolon ts in
  Ok (d, ts).
(** program.rs:3-9 [parse_program]. *)
Definition p_program (ts : list token) : pres aprogram :=
  match ts with
  | [] => Ok ([], [])
  | _ => let! (d, ts) := rec NDecl ts in let! (ds, ts) := rec NProgram ts in Ok (d :: ds, ts)
  end.

Definition body (s : sym) : list token -> pres (out s) :=
  match s return list token -> pres (out s) with
  | NExpr => p_expr
  | NBin l => p_bin l
  | NBinL l e => p_bin_loop l e
  | NCastL e => p_cast_loop e
  | NUn => p_un
  | NPost => p_post
  | NPostL e => p_post_loop e
  | NPrim => p_prim
  | NArgs => p_args
  | NFlags => p_flags
  | NType => p_type
  | NTypeL t => p_type_loop t
  | NEnum first => p_enum_loop first
  | NBits first => p_bits_loop first
  | NItems => p_items
  | NField => p_field
  | NXforms => p_xforms
  | NTArgs => p_targs
  | NImports => p_imports
  | NDecl => p_decl
  | NProgram => p_program
  end.
End Functions.

Fixpoint parser (n : nat) (s : sym) (ts : list token) : pres (out s) :=
  match n with O => Hang | S n => body (parser n) s ts end.

(** mod.rs:25-29 [parse], from the tokens on.  32 calls per token are always enough (ParseTotal). *)
Definition parse_tokens (ts : list token) : res perr aprogram :=
  let! (p, _) := parser (32 * S (List.length ts)) NProgram ts in Ok p.
(** expression/mod.rs:45 [parse_expression], on its own. *)
Definition parse_expression (ts : list token) : pres aexpr := parser (32 * S (List.length ts)) NExpr ts.
(** mod.rs:25-29 [parse]: tokenize without comments, then parse. *)
Definition parse (text : list Z) : res perr aprogram :=
  match tokenize text true with
  | Ok ts => parse_tokens (map fst ts)
  | Err i => Err (PTok i)
  | Panic => Panic
  | Hang => Hang
  end.
