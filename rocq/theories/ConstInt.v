(** Compile-time integers: asg/expression/const_int.rs. *)
From Verif Require Export Scalar.

(** const_int.rs:3-15 [ConstInt]: a value tagged with its Rust integer type.
    Simplification: one record instead of ten constructors; [ci_ok] states that
    the payload is a value of the tagged type. *)
Record cint := CI { ci_ty : scalar; ci_val : Z }.
Definition ci_ok (c : cint) : Prop := min_of (ci_ty c) <= ci_val c <= max_of (ci_ty c).

(** const_int.rs:3 derived [PartialEq]. *)
Definition ci_eqb (a b : cint) : bool :=
  scalar_eqb (ci_ty a) (ci_ty b) && (ci_val a =? ci_val b).

(** Results of the operators: [Ok None] is Rust's [None]; [Panic] is an
    arithmetic panic of the compiler.  [chk] is the crate's overflow-checks
    profile setting: [true] (debug profile) panics, [false] (release) wraps. *)
Definition ores := res Empty_set (option cint).

(** const_int.rs:35-51 [const_int_biop_map!]: same types or [None]. *)
Definition biop_map (f : scalar -> Z -> Z -> res Empty_set Z) (a b : cint) : ores :=
  if scalar_eqb (ci_ty a) (ci_ty b)
  then let! v := f (ci_ty a) (ci_val a) (ci_val b) in Ok (Some (CI (ci_ty a) v))
  else Ok None.

(** Rust +, -, * on one integer type. *)
Definition arith (chk : bool) (s : scalar) (exact : Z) : res Empty_set Z :=
  if in_range s exact then Ok exact else if chk then Panic else Ok (wrap s exact).

(** Rust / and %: truncating; division by zero and MIN / -1 panic in every profile. *)
Definition rust_div (s : scalar) (a b : Z) : res Empty_set Z :=
  if b =? 0 then Panic else if in_range s (Z.quot a b) then Ok (Z.quot a b) else Panic.
Definition rust_rem (s : scalar) (a b : Z) : res Empty_set Z :=
  if b =? 0 then Panic else if in_range s (Z.quot a b) then Ok (Z.rem a b) else Panic.

(** Rust << and >>: out-of-range amounts panic (checked) or are masked (unchecked). *)
Definition shift_amount (chk : bool) (s : scalar) (k : Z) : res Empty_set Z :=
  if (0 <=? k) && (k <? bits s) then Ok k
  else if chk then Panic else Ok (k mod bits s).
Definition rust_shl (chk : bool) (s : scalar) (a k : Z) : res Empty_set Z :=
  let! k := shift_amount chk s k in Ok (wrap s (Z.shiftl a k)).
Definition rust_shr (chk : bool) (s : scalar) (a k : Z) : res Empty_set Z :=
  let! k := shift_amount chk s k in Ok (Z.shiftr a k).

(** const_int.rs:93-171. *)
Definition ci_bitor := biop_map (fun _ a b => Ok (Z.lor a b)).              (* 93-99 *)
Definition ci_bitand := biop_map (fun _ a b => Ok (Z.land a b)).            (* 101-107 *)
Definition ci_bitxor := biop_map (fun _ a b => Ok (Z.lxor a b)).            (* 109-115 *)
Definition ci_shr chk := biop_map (rust_shr chk).                           (* 117-123 *)
Definition ci_shl chk := biop_map (rust_shl chk).                           (* 125-131 *)
Definition ci_add chk := biop_map (fun s a b => arith chk s (a + b)).       (* 133-139 *)
Definition ci_sub chk := biop_map (fun s a b => arith chk s (a - b)).       (* 141-147 *)
Definition ci_mul chk := biop_map (fun s a b => arith chk s (a * b)).       (* 149-155 *)
Definition ci_div := biop_map rust_div.                                     (* 157-163 *)
Definition ci_rem := biop_map rust_rem.                                     (* 165-171 *)

(** const_int.rs:173-180 [Neg]: unsigned is [unimplemented!]. *)
Definition ci_neg (chk : bool) (a : cint) : ores :=
  if is_signed (ci_ty a)
  then let! v := arith chk (ci_ty a) (- ci_val a) in Ok (Some (CI (ci_ty a) v))
  else Panic.

(** const_int.rs:182-188 [Not]: Rust's ! flips every bit of the type. *)
Definition ci_not (a : cint) : ores :=
  Ok (Some (CI (ci_ty a) (wrap (ci_ty a) (Z.lnot (ci_val a))))).

(** const_int.rs:87-91 [PartialOrd::partial_cmp]. *)
Definition ci_cmp (a b : cint) : option comparison :=
  if scalar_eqb (ci_ty a) (ci_ty b) then Some (ci_val a ?= ci_val b) else None.

(** const_int.rs:190-208 [cast_to]: Rust [as]. *)
Definition ci_cast (a : cint) (t : scalar) : cint := CI t (wrap t (ci_val a)).

(** std's [from_str_radix] for one integer type on ASCII text: optional sign
    ('-' only for signed types), at least one digit, checked multiply-then-add
    at every digit.  Any failure becomes [InvalidInt]. *)
Definition digit_of (radix c : Z) : option Z :=
  let d := if (48 <=? c) && (c <=? 57) then Some (c - 48)
           else if (97 <=? c) && (c <=? 122) then Some (c - 97 + 10)
           else if (65 <=? c) && (c <=? 90) then Some (c - 65 + 10)
           else None in
  match d with
  | Some d => if d <? radix then Some d else None
  | None => None
  end.

Fixpoint digits_loop (s : scalar) (neg : bool) (radix acc : Z) (l : list Z) : option Z :=
  match l with
  | [] => Some acc
  | c :: l =>
      match digit_of radix c with
      | None => None
      | Some d =>
          let m := acc * radix in
          if in_range s m then
            let a := if neg then m - d else m + d in
            if in_range s a then digits_loop s neg radix a l else None
          else None
      end
  end.

Definition from_str_radix (s : scalar) (radix : Z) (l : list Z) : option Z :=
  match l with
  | [] => None
  | [c] => if (c =? 43) || (c =? 45) then None else digits_loop s false radix 0 [c]
  | c :: r =>
      if c =? 43 then digits_loop s false radix 0 r
      else if (c =? 45) && is_signed s then digits_loop s true radix 0 r
      else digits_loop s false radix 0 l
  end.

(** const_int.rs:210-308 [ConstInt::parse]: "0x" selects radix 16, otherwise
    decimal; [None] is [AsgError::InvalidInt]. *)
Definition ci_parse (s : scalar) (l : list Z) : option cint :=
  match
    (match l with
     | c0 :: c1 :: r => if (c0 =? 48) && (c1 =? 120) then from_str_radix s 16 r else from_str_radix s 10 l
     | _ => from_str_radix s 10 l
     end)
  with
  | Some v => Some (CI s v)
  | None => None
  end.
