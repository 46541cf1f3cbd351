(** A sufficient check under which a generated decoder neither panics nor loops, whatever bytes it reads: an interval analysis of the emitted expressions
    (compiler/expr.rs:253-420) and a termination argument for recursive types.  The check is not part of the code under study: it delimits the programs
    theorem C49 is about.  The programs it rejects for good reasons are shown to crash in P_Safe.v. *)
From Verif Require Import Spec RtWf Data DataFacts.
Open Scope string_scope. Open Scope Z_scope. Open Scope list_scope.

(** What is known of a value: an integer in an interval, or a value of a generated type. *)
Inductive aty := AInt (s : scalar) (lo hi : Z) | ATy (t : rty).
Definition rty_dec (a b : rty) : {a = b} + {a <> b}.
Proof. repeat decide equality. Defined.
Definition afull (s : scalar) : aty := AInt s (min_of s) (max_of s).
Definition ale (a b : aty) : bool :=
  match a, b with
  | AInt s lo hi, AInt s' lo' hi' => scalar_eqb s s' && (lo' <=? lo) && (hi <=? hi')
  | ATy t, ATy t' => if rty_dec t t' then true else false
  | _, _ => false
  end.
Fixpoint ales (a b : list aty) : bool :=
  match a, b with
  | [], [] => true
  | x :: a, y :: b => ale x y && ales a b
  | _, _ => false
  end.
Definition ajoin (a b : aty) : option aty :=
  match a, b with
  | AInt s lo hi, AInt s' lo' hi' => if scalar_eqb s s' then Some (AInt s (Z.min lo lo') (Z.max hi hi')) else None
  | ATy t, ATy t' => if rty_dec t t' then Some a else None
  | _, _ => None
  end.

(** What is assumed of the surroundings: arguments with which foreign types and transforms do not crash, foreign types that read at least a byte, that are integers, that
    have a length. *)
Record sig := {
  sg_f : string -> list aty -> bool;
  sg_x : string -> list aty -> bool;
  sg_eat : string -> bool;
  sg_int : string -> option scalar;
  sg_len : string -> option Z }.
(** Per declaration: recursion rank, does it always read a byte, what its parameters are. *)
Record annot := { an_rank : nat; an_eat : bool; an_par : list aty }.
(** Where in the enclosing type's input we are: anywhere, not before its start, after its first byte. *)
Inductive mode := Free | Le | Lt.
Definition mstep (m : mode) (eats : bool) : mode := match m with Le => if eats then Lt else Le | m => m end.

Section Check.
  Variable p : program.
  Variable rf : nat.
  Variable fty : string -> ety.
  Variable sg : sig.
  Variable ann : string -> option annot.
  Definition eats_of (n : string) : bool := match ann n with Some a => an_eat a | None => false end.

  Definition aty_of (t : rty) : aty :=
    match t with
    | RTInt s => afull s
    | RTForeign f => match sg_int sg f with Some s => afull s | None => ATy t end
    | t => ATy t
    end.
  Definition enum_of (t : rty) : option enumdef :=
    match t with RTNamed n => match p n with Some d => match d_ty d with TEnum e => Some e | _ => None end | None => None end | _ => None end.
  Definition bits_of (t : rty) : option bitsdef :=
    match t with RTNamed n => match p n with Some d => match d_ty d with TBits e => Some e | _ => None end | None => None end | _ => None end.
  (** [==] on two values of the type. *)
  Fixpoint eqable (t : rty) : bool :=
    match t with
    | RTInt _ | RTBool => true
    | RTVec t => eqable t
    | RTNamed _ => is_some (enum_of t) || is_some (bits_of t)
    | _ => false
    end.
  Definition afits (s : scalar) (lo hi : Z) : option aty := if in_range s lo && in_range s hi then Some (AInt s lo hi) else None.
  Definition abool : aty := ATy RTBool.
  Definition is_abool (a : aty) : bool := match a with ATy RTBool => true | _ => false end.
  Definition abin (op : binop) (a b : aty) : option aty :=
    match op with
    | OOr | OAnd => if is_abool a && is_abool b then Some abool else None
    | OElvis => match a with ATy (RTOpt t) => if ale b (aty_of t) then Some (aty_of t) else None | _ => None end
    | OEq | ONe =>
        match a, b with
        | AInt s _ _, AInt s' _ _ => if scalar_eqb s s' then Some abool else None
        | ATy t, ATy t' => if rty_dec t t' then if eqable t then Some abool else None else None
        | _, _ => None
        end
    | OShrS => None
    | _ =>
        match a, b with
        | AInt s l1 h1, AInt s' l2 h2 =>
            if scalar_eqb s s' then
              match op with
              | OLt | OGt | OLte | OGte => Some abool
              | OAdd => afits s (l1 + l2) (h1 + h2)
              | OSub => afits s (l1 - h2) (h1 - l2)
              | OMul => if (0 <=? l1) && (0 <=? l2) then afits s (l1 * l2) (h1 * h2) else None
              | ODiv => if (0 <=? l1) && (1 <=? l2) then Some (AInt s 0 h1) else None
              | OMod => if (0 <=? l1) && (1 <=? l2) then Some (AInt s 0 (Z.min h1 (h2 - 1))) else None
              | OBitAnd => if 0 <=? l2 then Some (AInt s 0 h2) else if 0 <=? l1 then Some (AInt s 0 h1) else Some (afull s)
              | OBitOr | OBitXor => Some (afull s)
              | OShr => if (0 <=? l2) && (h2 <? bits s) then Some (if 0 <=? l1 then AInt s 0 h1 else afull s) else None
              | OShl => if (0 <=? l2) && (h2 <? bits s) then Some (afull s) else None
              | _ => None
              end
            else None
        | _, _ => None
        end
    end.
  Definition aun (op : unop) (a : aty) : option aty :=
    match op, a with
    | UNeg, AInt s lo hi => if is_signed s then afits s (- hi) (- lo) else None
    | (UNot | UBitNot), AInt s _ _ => Some (afull s)
    | (UNot | UBitNot), ATy RTBool => Some abool
    | _, _ => None
    end.
  Definition aas (a : aty) (t : ety) : option aty :=
    match a, t with
    | AInt s lo hi, TyScalar e => Some (if in_range (es_scalar e) lo && in_range (es_scalar e) hi then AInt (es_scalar e) lo hi else afull (es_scalar e))
    | ATy RTBool, TyScalar e => Some (AInt (es_scalar e) 0 1)
    | ATy RTBool, TyBool => Some abool
    | _, _ => None
    end.
  Definition alen (a : aty) : option aty :=
    match a with
    | AInt s _ _ => Some (AInt U64 (Z.of_nat (size s)) (Z.of_nat (size s)))
    | ATy (RTVec _) => Some (AInt U64 0 (2 ^ 63 - 1))
    | ATy RTBool => Some (AInt U64 1 1)
    | ATy RTF32 => Some (AInt U64 4 4)
    | ATy RTF64 => Some (AInt U64 8 8)
    | ATy (RTForeign f) => match sg_len sg f with Some h => if in_range U64 h then Some (AInt U64 0 h) else None | None => None end
    | ATy t => match enum_of t, bits_of t with
               | Some e, _ => Some (AInt U64 0 16)
               | _, Some e => Some (AInt U64 0 16)
               | _, _ => None
               end
    end.

  Section Exprs.
    Variable fenv : list (string * rty).
    Variable ienv : list (string * aty).
    Fixpoint rsafe (r : rexpr) : option aty :=
      match r with
      | RLit c => afits (ci_ty c) (ci_val c) (ci_val c)
      | RField n => option_map aty_of (lookup n fenv)
      | RInput n => lookup n ienv
      | RBoolLit _ => Some abool
      | RBytes b => if forallb (in_range U8) b && (Z.of_nat (List.length b) <? 2 ^ 63) then Some (ATy (RTVec (RTInt U8))) else None
      | RVariant d n =>
          match enum_of (RTNamed (en_name d)) with
          | Some d' =>
              if enumdef_dec d d' then
                match to_repr (en_items d) (VNamed n) with
                | Some z => if in_range (es_scalar (en_rep d)) z then Some (ATy (RTNamed (en_name d))) else None
                | None => None
                end
              else None
          | None => None
          end
      | RBin op l r => match rsafe l, rsafe r with Some a, Some b => abin op a b | _, _ => None end
      | RUn op e => match rsafe e with Some a => aun op a | None => None end
      | RAs e t => match rsafe e with Some a => aas a t | None => None end
      | RRepr e => match rsafe e with Some (ATy t) => option_map (fun d => afull (es_scalar (en_rep d))) (enum_of t) | _ => None end
      | RRaw e => match rsafe e with Some (ATy t) => option_map (fun d => afull (es_scalar (bf_rep d))) (bits_of t) | _ => None end
      | RMember e f =>
          match rsafe e with
          | Some (ATy t) => match bits_of t with Some d => if is_some (lookup f (bf_items d)) then Some abool else None | None => None end
          | _ => None
          end
      | RIf c a b =>
          match rsafe c, rsafe a, rsafe b with
          | Some c, Some a, Some b => if is_abool c then ajoin a b else None
          | _, _, _ => None
          end
      | RCall f [x] =>
          match rsafe x with
          | Some a =>
              if String.eqb f "len" then alen a
              else if String.eqb f "bits" then match a with AInt U64 _ _ => Some (afull U8) | _ => None end
              else None
          | None => None
          end
      | RCall f [x; y] =>
          match rsafe x, rsafe y with
          | Some (AInt U64 l1 h1), Some (AInt U64 l2 _) => if String.eqb f "pad" && (1 <=? l1) && (0 <=? l2) then Some (AInt U64 0 (h1 - 1)) else None
          | _, _ => None
          end
      | RCall _ _ | RIndex _ _ | RFlag _ _ | RName _ | RInvalid => None
      end.
    Definition esafe (e : expr) : option aty := rsafe (emit fty e).
    Fixpoint esafes (l : list expr) : option (list aty) :=
      match l with
      | [] => Some []
      | e :: l => match esafe e, esafes l with Some a, Some b => Some (a :: b) | _, _ => None end
      end.
    Definition bsafe (o : option expr) : bool := match o with Some e => match esafe e with Some a => is_abool a | None => false end | None => true end.
    Definition isafe (o : option expr) : bool := match o with Some e => match esafe e with Some (AInt _ _ _) => true | _ => false end | None => true end.
    Definition xsafe (x : xuse) : bool := bsafe (x_cond x) && match esafes (x_args x) with Some a => sg_x sg (x_name x) a | None => false end.
  End Exprs.

  Section Decl.
    Variable rank : nat.
    Variable ienv : list (string * aty).
    Fixpoint tsafe (m : mode) (fenv : list (string * rty)) (t : ty) : bool :=
      match t with
      | TScalar _ | TF32 | TF64 | TBool | TEnum _ | TBits _ => true
      | TForeign f => sg_f sg f []
      | TRef n args =>
          match esafes fenv ienv args with
          | Some ats =>
              match foreign_of p n with
              | Some f => sg_f sg f ats
              | None =>
                  match ann n with
                  | Some a => ales ats (an_par a) && ((an_rank a <? rank)%nat || (match m with Lt => true | _ => false end && (an_rank a =? rank)%nat))
                  | None => false
                  end
              end
          | None => false
          end
      | TArr el lc =>
          match lc with
          | LFixed e =>
              match esafe fenv ienv e with
              | Some (AInt _ lo hi) =>
                  (0 <=? lo) &&
                  match kind_of (resolved p rf el) with
                  | KPrim PBool => false
                  | KPrim pr => hi * Z.of_nat (prim_size pr) <? 2 ^ 63
                  | KRepr d => hi * Z.of_nat (size (es_scalar (repr_rep d))) <? 2 ^ 63
                  | KLoop => (hi <? 2 ^ 48) && tsafe m fenv el
                  end
              | _ => false
              end
          | LRest =>
              match kind_of (resolved p rf el) with
              | KPrim PBool => false
              | KPrim _ | KRepr _ => true
              | KLoop => tsafe m fenv el && ty_eats p (sg_eat sg) eats_of el
              end
          | LTerm e =>
              match e with
              | EStr b => forallb (in_range U8) b && (List.length b <=? 1)%nat && tsafe m fenv el && ty_eats p (sg_eat sg) eats_of el
              | _ => false
              end
          end
      | TCont _ _ _ => false
      end.
    (** The fields a field puts in scope. *)
    Definition scope (f : fattr * ty) (fenv : list (string * rty)) : list (string * rty) :=
      match gen_field p false (fst f) (snd f) with Some ts => rev ts ++ fenv | None => fenv end.
    Definition xmode (a : fattr) (m : mode) : mode := match fa_xs a with [] => m | _ => Free end.
    Definition attr_safe (a : fattr) (fenv : list (string * rty)) : bool :=
      match fa_cond a with
      | Some e => match esafe fenv ienv e with Some c => fa_pad a || is_abool c | None => false end
      | None => true
      end && forallb (xsafe fenv ienv) (fa_xs a).
    Fixpoint csafe (m : mode) (fenv : list (string * rty)) (a : fattr) (t : ty) {struct t} : bool :=
      if fa_pad a then
        match t with
        | TArr _ (LFixed e) => match esafe fenv ienv e with Some (AInt _ lo hi) => (0 <=? lo) && (hi <? 2 ^ 63) | _ => false end
        | _ => false
        end
      else
        match t with
        | TCont len tg items =>
            negb tg && isafe fenv ienv len &&
            (fix go (m : mode) (fenv : list (string * rty)) (l : list (fattr * ty)) : bool :=
               match l with
               | [] => true
               | f :: l => attr_safe (fst f) fenv && csafe (xmode (fst f) m) fenv (fst f) (snd f)
                           && go (mstep m (field_eats p (sg_eat sg) eats_of f)) (scope f fenv) l
               end) m fenv items
        | t => tsafe m fenv t
        end.
    Fixpoint isafes (m : mode) (fenv : list (string * rty)) (l : list (fattr * ty)) : bool :=
      match l with
      | [] => true
      | f :: l => attr_safe (fst f) fenv && csafe (xmode (fst f) m) fenv (fst f) (snd f) && isafes (mstep m (field_eats p (sg_eat sg) eats_of f)) (scope f fenv) l
      end.
    Definition vsafe (m : mode) (f : fattr * ty) : bool :=
      negb (fa_pad (fst f)) && attr_safe (fst f) [] && csafe (xmode (fst f) m) [] (fst f) (snd f).
    Definition body_safe (m : mode) (t : ty) : bool :=
      match t with
      | TCont len true items => isafe [] ienv len && forallb (vsafe m) items
      | TCont len false items => isafe [] ienv len && isafes m [] items
      | t => tsafe m [] t
      end.
  End Decl.
  Definition decl_safe (a : annot) (d : decl) : bool :=
    forallb (fun q => negb (is_some (pm_default q))) (d_params d) && (List.length (d_params d) =? List.length (an_par a))%nat &&
    (let ienv := rev (combine (map pm_name (d_params d)) (an_par a)) in
     forallb (xsafe [] ienv) (fa_xs (d_attr d)) && body_safe (an_rank a) ienv (xmode (d_attr d) Le) (d_ty d)) &&
    (negb (an_eat a) || decl_eats p (sg_eat sg) eats_of d).
End Check.
