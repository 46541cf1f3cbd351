(** Specification of the concrete syntax of tokens, used to state C15-C18. *)
From Verif Require Import Base Tokens.
Open Scope string_scope. Open Scope Z_scope. Open Scope list_scope.

(** How each operator and keyword is written (README.md, docs). *)
Definition op_text (o : op) : list Z := bs
  match o with
  | PEqual => "=" | PComma => "," | PDotDot => ".." | PDot => "." | PElvis => "?:" | PLt => "<" | PGt => ">" | PArrow => "->"
  | PLeftSquare => "[" | PRightSquare => "]" | PLeftCurly => "{" | PRightCurly => "}" | PLtEq => "<=" | PGtEq => ">=" | PEq => "==" | PNe => "!="
  | PQuestion => "?" | PColon => ":" | PDoubleColon => "::" | PSemicolon => ";" | PPlus => "+" | PMinus => "-" | PMul => "*" | PDiv => "/" | PMod => "%"
  | PNot => "!" | PLeftParen => "(" | PRightParen => ")" | PCast => ":>" | POr => "||" | PAnd => "&&" | PBitOr => "|" | PBitXor => "^" | PBitAnd => "&"
  | PShr => ">>" | PShl => "<<" | PShrSigned => ">>>" | PBitNot => "~"
  end.
Definition kw_text (k : kw) : list Z := bs
  match k with
  | KType => "type" | KAs => "as" | KImport => "import" | KFrom => "from" | KImportFfi => "import_ffi" | KTransform => "transform" | KFunction => "function" | KConst => "const"
  | KU8 => "u8" | KU16 => "u16" | KU32 => "u32" | KU64 => "u64" | KU128 => "u128" | KI8 => "i8" | KI16 => "i16" | KI32 => "i32" | KI64 => "i64" | KI128 => "i128"
  | KU16Le => "u16le" | KU32Le => "u32le" | KU64Le => "u64le" | KU128Le => "u128le" | KI16Le => "i16le" | KI32Le => "i32le" | KI64Le => "i64le" | KI128Le => "i128le"
  | KF32 => "f32" | KF64 => "f64" | KBool => "bool" | KContainer => "container" | KEnum => "enum" | KDefault => "default" | KBitfield => "bitfield" | KTrue => "true" | KFalse => "false"
  end.

Definition ws (l : list Z) : Prop := Forall (fun c => is_ws c = true) l.
Definition digits (l : list Z) : Prop := Forall (fun c => is_digit c = true) l.
Definition hexdigits (l : list Z) : Prop := Forall (fun c => is_hex c = true) l.
Definition ident_word (w : list Z) : Prop :=
  exists c r, w = c :: r /\ id_start c = true /\ Forall (fun x => id_cont x = true) r.

(** Contents of a string literal, as written and as meant: any byte but a quote or
    backslash stands for itself, a backslash makes the next one literal unless it is a
    hex digit, and one hex digit is that value.  The last rule is what the tokenizer does
    with two or more hex digits (see C17). *)
Inductive str_body : list Z -> list Z -> Prop :=
| sb_nil : str_body [] []
| sb_raw c body out : c <> 34 -> c <> 92 -> str_body body out -> str_body (c :: body) (c :: out)
| sb_esc c body out : is_hex c = false -> str_body body out -> str_body (92 :: c :: body) (c :: out)
| sb_hex1 h body out : is_hex h = true -> (forall d r, body = d :: r -> is_hex d = false) -> str_body body out ->
    str_body (92 :: h :: body) (hex_val h :: out)
| sb_hex3 h d e body out : is_hex h = true -> is_hex d = true -> is_hex e = true -> str_body (e :: body) out ->
    str_body (92 :: h :: d :: e :: body) (16 * hex_val d + hex_val e :: out).

(** No [*/] inside. *)
Definition no_close (l : list Z) : Prop := forall a b, l <> a ++ 42 :: 47 :: b.

(** The texts of a token. *)
Inductive spells : token -> list Z -> Prop :=
| sp_op o : spells (TOp o) (op_text o)
| sp_kw k : spells (TKw k) (kw_text k)
| sp_ident w : ident_word w -> (forall k, kw_text k <> w) -> spells (TIdent w) w
| sp_dec w : w <> [] -> digits w -> spells (TInt w) w
| sp_hex h : hexdigits h -> spells (TInt (bs "0x" ++ h)) (bs "0x" ++ h)
| sp_str body out : str_body body out -> spells (TStr out) (34 :: body ++ [34])
| sp_line c : ~ In 10 c -> spells (TLine c) (bs "//" ++ c ++ [10])
| sp_block c : no_close c -> spells (TBlock c) (bs "/*" ++ c ++ bs "*/").

(** [covers s ts]: the text [s] is made of texts of the tokens [ts], in order, with
    only whitespace between and around them.  A comment may be cut short by the end of
    the text. *)
Inductive covers : list Z -> list token -> Prop :=
| cv_end : covers [] []
| cv_ws c s ts : is_ws c = true -> covers s ts -> covers (c :: s) ts
| cv_tok t x s ts : spells t x -> covers s ts -> covers (x ++ s) (t :: ts)
| cv_line c : ~ In 10 c -> covers (bs "//" ++ c) [TLine c]
| cv_block c : c <> [] -> no_close c -> covers (bs "/*" ++ c) [TBlock c]
| cv_open : covers (bs "/*") [].

(** [munches s ts]: as [covers], and each text taken is the longest prefix of what is
    left that is the text of any token. *)
Definition longest (x s : list Z) : Prop := forall t' x' s', x ++ s = x' ++ s' -> spells t' x' -> (List.length x' <= List.length x)%nat.
Inductive munches : list Z -> list token -> Prop :=
| mn_end : munches [] []
| mn_ws c s ts : is_ws c = true -> munches s ts -> munches (c :: s) ts
| mn_tok t x s ts : spells t x -> longest x s -> munches s ts -> munches (x ++ s) (t :: ts)
| mn_line c : ~ In 10 c -> munches (bs "//" ++ c) [TLine c]
| mn_block c : c <> [] -> no_close c -> munches (bs "/*" ++ c) [TBlock c]
| mn_open : munches (bs "/*") [].

(** Positions.  [column pre]: bytes since the last newline of [pre] (or its start).
    [placed pre s ts]: as [covers] for the text [s] behind [pre], and every token carries
    the line it is on, counted from 1, and the columns it occupies, counted from 1 - plus
    64 on the first line of the source, which is what the code does (see C18). *)
Definition column (pre : list Z) : Z := Z.of_nat (List.length (fst (take_while (fun c => negb (c =? 10)) (rev pre)))).
Definition first_line (pre : list Z) : bool := negb (existsb (fun c => c =? 10) pre).
Inductive placed : list Z -> list Z -> list (token * span) -> Prop :=
| pl_end pre : placed pre [] []
| pl_ws pre c s ts : is_ws c = true -> placed (pre ++ [c]) s ts -> placed pre (c :: s) ts
| pl_tok pre t x sp s ts : spells t x ->
    line_start sp = 1 + newlines pre -> line_stop sp = 1 + newlines pre ->
    col_start sp = column pre + 1 + (if first_line pre then 64 else 0) ->
    col_stop sp = col_start sp + Z.of_nat (List.length x) ->
    placed (pre ++ x) s ts -> placed pre (x ++ s) ((t, sp) :: ts)
| pl_open pre : placed pre (bs "/*") [].
(** Tokens whose text has no newline. *)
Definition one_line (t : token) : Prop := match t with TLine _ | TBlock _ => False | TStr o => ~ In 10 o | _ => True end.
