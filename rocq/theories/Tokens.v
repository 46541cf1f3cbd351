(** Model of protospec-build/src/tokenizer.rs.

    Source text is its list of UTF-8 bytes (the input is a [&str]; the code works on
    [input.as_bytes()]). *)
From Verif Require Import Base.
Open Scope string_scope. Open Scope Z_scope. Open Scope list_scope.

(** Bytes of a literal. *)
Fixpoint bs (s : string) : list Z :=
  match s with
  | EmptyString => []
  | String c s => Z.of_nat (Ascii.nat_of_ascii c) :: bs s
  end.

(** tokenizer.rs:6-87 [Token].  The operator and keyword variants are grouped in two
    enumerations; otherwise one constructor each. *)
Inductive op :=
| PEqual | PComma | PDotDot | PDot | PElvis | PLt | PGt | PArrow | PLeftSquare | PRightSquare | PLeftCurly | PRightCurly
| PLtEq | PGtEq | PEq | PNe | PQuestion | PColon | PDoubleColon | PSemicolon | PPlus | PMinus | PMul | PDiv | PMod | PNot
| PLeftParen | PRightParen | PCast | POr | PAnd | PBitOr | PBitXor | PBitAnd | PShr | PShl | PShrSigned | PBitNot.
Inductive kw :=
| KType | KAs | KImport | KFrom | KImportFfi | KTransform | KFunction | KConst
| KU8 | KU16 | KU32 | KU64 | KU128 | KI8 | KI16 | KI32 | KI64 | KI128
| KU16Le | KU32Le | KU64Le | KU128Le | KI16Le | KI32Le | KI64Le | KI128Le
| KF32 | KF64 | KBool | KContainer | KEnum | KDefault | KBitfield | KTrue | KFalse.
Inductive token :=
| TIdent (s : list Z)
| TStr (s : list Z)
| TInt (s : list Z)
| TLine (s : list Z)       (* CommentLine *)
| TBlock (s : list Z)      (* CommentBlock *)
| TOp (o : op)
| TKw (k : kw).

(** u8::is_ascii_whitespace, is_ascii_digit, is_ascii_hexdigit, is_ascii_alphabetic. *)
Definition is_ws (c : Z) : bool := (c =? 32) || (c =? 9) || (c =? 10) || (c =? 12) || (c =? 13).
Definition is_digit (c : Z) : bool := (48 <=? c) && (c <=? 57).
Definition is_hex (c : Z) : bool := is_digit c || ((97 <=? c) && (c <=? 102)) || ((65 <=? c) && (c <=? 70)).
Definition is_alpha (c : Z) : bool := ((97 <=? c) && (c <=? 122)) || ((65 <=? c) && (c <=? 90)).
(** tokenizer.rs:188, 193: identifier start and continuation. *)
Definition id_start (c : Z) : bool := is_alpha c || (c =? 95).
Definition id_cont (c : Z) : bool := is_alpha c || is_digit c || (c =? 95).
(** u8::from_str_radix(_, 16) of one digit. *)
Definition hex_val (c : Z) : Z := if is_digit c then c - 48 else if 97 <=? c then c - 87 else c - 55.

(** tokenizer.rs:173-182 [eat]. *)
Fixpoint eat (input wanted : list Z) {struct wanted} : option (list Z) :=
  match wanted, input with
  | [], _ => Some input
  | w :: ws, c :: cs => if c =? w then eat cs ws else None
  | _ :: _, [] => None
  end.

(** The longest prefix of bytes in a class (the while loops of 192-197 and 255-272). *)
Fixpoint take_while (f : Z -> bool) (l : list Z) : list Z * list Z :=
  match l with
  | c :: r => if f c then let (a, b) := take_while f r in (c :: a, b) else ([], l)
  | [] => ([], [])
  end.

(** tokenizer.rs:184-199 [eat_identifier]. *)
Definition eat_identifier (input : list Z) : option (list Z * list Z) :=
  match input with
  | c :: r => if id_start c then let (a, b) := take_while id_cont r in Some (c :: a, b) else None
  | [] => None
  end.

(** tokenizer.rs:208-251, the string literal from behind the opening quote: contents
    and rest, not terminated, or a panic.  The loop index is the position in the list:
    line 212 needs a byte behind the backslash; 216 steps on to the second hex digit and
    219 then slices two bytes from there (out of range, not UTF-8 or not hexadecimal:
    the unwraps panic); 236 steps one byte further only. *)
Inductive scan := SDone (out rest : list Z) | SOpen | SPanic.
Definition scan_push (b : Z) (s : scan) : scan := match s with SDone out rest => SDone (b :: out) rest | s => s end.
Fixpoint scan_str (l : list Z) : scan :=
  match l with
  | [] => SOpen
  | x :: r =>
      if (x =? 92) then
        match r with
        | [] => SOpen
        | c :: r1 =>
            if is_hex c then
              match r1 with
              | d :: r2 =>
                  if is_hex d then
                    match r2 with
                    | e :: _ => if is_hex e then scan_push (16 * hex_val d + hex_val e) (scan_str r2) else SPanic
                    | [] => SPanic
                    end
                  else scan_push (hex_val c) (scan_str r1)
              | [] => SOpen
              end
            else scan_push c (scan_str r1)
        end
      else if x =? 34 then SDone [] r
      else scan_push x (scan_str r)
  end.

(** tokenizer.rs:252-279, integers. *)
Definition scan_int (c : Z) (r : list Z) : list Z * list Z :=
  match r with
  | x :: r' =>
      if (c =? 48) && (x =? 120) then let (a, b) := take_while is_hex r' in (c :: x :: a, b)
      else let (a, b) := take_while is_digit r in (c :: a, b)
  | [] => ([c], [])
  end.

(** tokenizer.rs:315-344: line comments end at a newline (consumed) or the end of input,
    block comments at the first [*/] or the end of input. *)
Definition scan_line (l : list Z) : list Z * list Z :=
  let (a, b) := take_while (fun c => negb (c =? 10)) l in (a, tl b).
Fixpoint scan_block (l : list Z) : list Z * list Z :=
  match l with
  | a :: ((b :: r) as t) => if (a =? 42) && (b =? 47) then ([], r) else let (x, y) := scan_block t in (a :: x, y)
  | _ => (l, [])
  end.

(** tokenizer.rs:280-405: the match on the first byte and the [eat]s in each arm, as one
    list tried in order (the arms have different first bytes, so only the order inside an
    arm matters). *)
Inductive punct := AOp (o : op) | ALine | ABlock.
Definition puncts : list (list Z * punct) :=
  [ (bs "==", AOp PEq); (bs "=", AOp PEqual);                                        (* 280-286 *)
    (bs ",", AOp PComma); (bs ";", AOp PSemicolon);                                  (* 287-288 *)
    (bs "?:", AOp PElvis); (bs "?", AOp PQuestion);                                  (* 289-295 *)
    (bs "[", AOp PLeftSquare); (bs "]", AOp PRightSquare); (bs "{", AOp PLeftCurly); (bs "}", AOp PRightCurly); (* 296-299 *)
    (bs "(", AOp PLeftParen); (bs ")", AOp PRightParen);                             (* 300-301 *)
    (bs "+", AOp PPlus); (bs "*", AOp PMul); (bs "%", AOp PMod); (bs "^", AOp PBitXor); (bs "~", AOp PBitNot); (* 302-306 *)
    (bs "||", AOp POr); (bs "|", AOp PBitOr);                                        (* 307-313 *)
    (bs "//", ALine); (bs "/*", ABlock); (bs "/", AOp PDiv);                         (* 314-347 *)
    (bs "&&", AOp PAnd); (bs "&", AOp PBitAnd);                                      (* 348-354 *)
    (bs "..", AOp PDotDot); (bs ".", AOp PDot);                                      (* 355-361 *)
    (bs ":>", AOp PCast); (bs "::", AOp PDoubleColon); (bs ":", AOp PColon);         (* 362-370 *)
    (bs "<=", AOp PLtEq); (bs "<<", AOp PShl); (bs "<", AOp PLt);                    (* 371-379 *)
    (bs ">=", AOp PGtEq); (bs ">>>", AOp PShrSigned); (bs ">>", AOp PShr); (bs ">", AOp PGt); (* 380-390 *)
    (bs "->", AOp PArrow); (bs "-", AOp PMinus);                                     (* 391-397 *)
    (bs "!=", AOp PNe); (bs "!", AOp PNot) ].                                        (* 398-404 *)
Fixpoint punct_at (tab : list (list Z * punct)) (input : list Z) : option (punct * list Z) :=
  match tab with
  | (w, p) :: tab => match eat input w with Some rest => Some (p, rest) | None => punct_at tab input end
  | [] => None
  end.

(** tokenizer.rs:412-448. *)
Definition keywords : list (list Z * kw) :=
  [ (bs "type", KType); (bs "as", KAs); (bs "import", KImport); (bs "import_ffi", KImportFfi);
    (bs "i8", KI8); (bs "i16", KI16); (bs "i32", KI32); (bs "i64", KI64); (bs "i128", KI128);
    (bs "u8", KU8); (bs "u16", KU16); (bs "u32", KU32); (bs "u64", KU64); (bs "u128", KU128);
    (bs "i16le", KI16Le); (bs "i32le", KI32Le); (bs "i64le", KI64Le); (bs "i128le", KI128Le);
    (bs "u16le", KU16Le); (bs "u32le", KU32Le); (bs "u64le", KU64Le); (bs "u128le", KU128Le);
    (bs "transform", KTransform); (bs "function", KFunction); (bs "const", KConst); (bs "container", KContainer);
    (bs "f32", KF32); (bs "f64", KF64); (bs "enum", KEnum); (bs "default", KDefault); (bs "bitfield", KBitfield);
    (bs "bool", KBool); (bs "from", KFrom); (bs "true", KTrue); (bs "false", KFalse) ].
Fixpoint eqbl (a b : list Z) : bool :=
  match a, b with
  | [], [] => true
  | x :: a, y :: b => (x =? y) && eqbl a b
  | _, _ => false
  end.
Fixpoint keyword (tab : list (list Z * kw)) (w : list Z) : option kw :=
  match tab with
  | (k, t) :: tab => if eqbl w k then Some t else keyword tab w
  | [] => None
  end.
Definition word (w : list Z) : token := match keyword keywords w with Some k => TKw k | None => TIdent w end.

(** tokenizer.rs:202-452 [gobble]: rest and maybe a token, or a panic. *)
Inductive gobbled := GTok (t : token) (rest : list Z) | GNone (rest : list Z) | GPanic.
Definition gobble (input : list Z) : gobbled :=
  match input with
  | [] => GNone []
  | c :: r =>
      if is_ws c then GNone r
      else if c =? 34 then
        match scan_str r with SDone out rest => GTok (TStr out) rest | SOpen => GNone input | SPanic => GPanic end
      else if is_digit c then let (a, b) := scan_int c r in GTok (TInt a) b
      else match punct_at puncts input with
        | Some (AOp o, rest) => GTok (TOp o) rest
        | Some (ALine, rest) => let (a, b) := scan_line rest in GTok (TLine a) b
        | Some (ABlock, rest) =>
            match rest with [] => GNone [] | _ => let (a, b) := scan_block rest in GTok (TBlock a) b end
        | None =>
            match eat_identifier input with
            | Some (w, rest) => GTok (word w) rest
            | None => GNone input
            end
        end
  end.

(** tokenizer.rs:456-462 [Span]. *)
Record span := { line_start : Z; line_stop : Z; col_start : Z; col_stop : Z }.

Definition newlines (l : list Z) : Z := Z.of_nat (List.length (filter (fun c => c =? 10) l)).

(** tokenizer.rs:540-591, the loop of [tokenize]: [index] starts at [064], which is
    decimal 64 in Rust.  An error carries the index. *)
Fixpoint tok_loop (fuel : nat) (input : list Z) (index line lstart : Z) : res Z (list (token * span)) :=
  match fuel with
  | O => Hang
  | S fuel =>
      match input with
      | [] => Ok []
      | c :: _ =>
          match gobble input with
          | GPanic => Panic
          | GTok t rest =>
              let n := Z.of_nat (List.length input) - Z.of_nat (List.length rest) in
              let line' := match t with TLine _ => line + 1 | TBlock s => line + newlines s | _ => line end in
              let sp := {| line_start := line; line_stop := line'; col_start := index - lstart + 1; col_stop := index - lstart + n + 1 |} in
              let! ts := tok_loop fuel rest (index + n) line' lstart in
              Ok ((t, sp) :: ts)
          | GNone rest =>
              if (List.length rest =? 0)%nat then Ok []
              else if (List.length rest =? List.length input)%nat then Err index
              else
                let n := Z.of_nat (List.length input) - Z.of_nat (List.length rest) in
                if c =? 10 then tok_loop fuel rest (index + n) (line + 1) (index + n)
                else tok_loop fuel rest (index + n) line lstart
          end
      end
  end.
Definition is_comment (t : token) : bool := match t with TLine _ | TBlock _ => true | _ => false end.
(** tokenizer.rs:540-600 [tokenize]. *)
Definition tokenize (input : list Z) (strip : bool) : res Z (list (token * span)) :=
  let! ts := tok_loop (S (List.length input)) input 64 1 0 in
  Ok (if strip then filter (fun x => negb (is_comment (fst x))) ts else ts).
