(** A sufficient check under which a generated encoder neither panics nor loops, whatever value of the generated data type it is given: the interval analysis of Safe.v on the
    emitted expressions (compiler/expr.rs:253-420), and the rule that a fixed-length array is counted by a field computed as its [len].  The check is not part of the code under
    study: it delimits the programs theorem C59 is about.  The programs it rejects for good reasons are shown to crash in P_EncSafe.v. *)
From Verif Require Import Spec RtWf Data DataFacts Safe.
Open Scope string_scope. Open Scope Z_scope. Open Scope list_scope.

(** What is known of the names in scope: their types, and which counts are the length of which arrays. *)
Record escope := { sc_ty : list (string * rty); sc_len : list (string * string) }.
Definition esc_push (n : string) (t : rty) (st : escope) : escope :=
  {| sc_ty := (n, t) :: sc_ty st; sc_len := filter (fun c => negb (String.eqb (fst c) n) && negb (String.eqb (snd c) n)) (sc_len st) |}.
Definition esc_hide (n : string) (st : escope) : escope :=
  {| sc_ty := filter (fun c => negb (String.eqb (fst c) n)) (sc_ty st); sc_len := filter (fun c => negb (String.eqb (fst c) n) && negb (String.eqb (snd c) n)) (sc_len st) |}.
Definition esc_count (n d : string) (st : escope) : escope := {| sc_ty := sc_ty st; sc_len := (n, d) :: sc_len st |}.
(** Integer types that hold the length of any array. *)
Definition wide (s : scalar) : bool := 2 ^ 63 - 1 <=? max_of s.

Section Check.
  Variable p : program.
  Variable rf : nat.
  Variable fty : string -> ety.
  Variable sg : sig.
  (** The parameters of a declaration; [None]: it does not pass. *)
  Variable par : string -> option (list aty).

  Definition rty_of (a : aty) : rty := match a with AInt s _ _ => RTInt s | ATy t => t end.
  (** Types whose values contain no structs. *)
  Fixpoint flat (t : rty) : bool :=
    match t with
    | RTInt _ | RTF32 | RTF64 | RTBool => true
    | RTVec t | RTOpt t => flat t
    | RTNamed _ => is_some (enum_of p t) || is_some (bits_of p t)
    | RTForeign _ => false
    end.
  (** A value of Rust type [r] is what the encoder of [t] takes. *)
  Definition takes (t : ty) (r : rty) : bool :=
    match type_ref p t with
    | Some r' => (if rty_dec r r' then true else false)
                 || match r', r with RTForeign f, RTInt s => match sg_int sg f with Some s' => scalar_eqb s s' | None => false end | _, _ => false end
    | None => false
    end.
  (** [len(d)], possibly cast to an unsigned type; a reference to [n], possibly cast. *)
  Definition counts (r : rexpr) : option string :=
    match r with
    | RCall f [RField d] => if String.eqb f "len" then Some d else None
    | RAs (RCall f [RField d]) (TyScalar e) => if String.eqb f "len" && negb (is_signed (es_scalar e)) then Some d else None
    | _ => None
    end.
  Definition count_ref (r : rexpr) : option (string * bool) :=
    match r with
    | RField n => Some (n, true)
    | RAs (RField n) (TyScalar e) => Some (n, wide (es_scalar e))
    | _ => None
    end.
  Definition counted (st : escope) (n d : string) : bool := existsb (fun c => String.eqb (fst c) n && String.eqb (snd c) d) (sc_len st).
  Definition small (o : option aty) : bool := match o with Some (AInt _ lo hi) => (0 <=? lo) && (hi <? 2 ^ 63) | _ => false end.

  Section Body.
    Variable ienv : list (string * aty).
    Notation esafe st := (esafe p fty sg (sc_ty st) ienv).
    (** [own]: the field whose value is written, if this is it. *)
    Fixpoint type_esafe (st : escope) (own : option string) (t : ty) : bool :=
      match t with
      | TScalar _ | TF32 | TF64 | TBool => true
      | TForeign f => sg_f sg f []
      | TRef n args =>
          match esafes p fty sg (sc_ty st) ienv args with
          | Some ats =>
              match foreign_of p n with
              | Some f => sg_f sg f ats
              | None => match par n with Some ps => ales ats ps | None => false end
              end
          | None => false
          end
      | TArr el lc =>
          bulk_ok p rf el && (match kind_of (resolved p rf el) with KPrim PBool => false | KPrim _ | KRepr _ => true | KLoop => type_esafe st None el end) &&
          match lc with
          | LRest => true
          | LTerm e => type_esafe st None el && match esafe st e with Some (ATy t) => if rty_dec t (RTVec (RTInt U8)) then true else false | _ => false end
          | LFixed e =>
              match count_ref (emit fty e), own with
              | Some (n, ex), Some d =>
                  counted st n d &&
                  match kind_of (resolved p rf el) with
                  | KLoop => true
                  | _ => ex && match lookup n (sc_ty st) with Some (RTInt s) => wide s | _ => false end
                  end
              | _, _ => false
              end
          end
      | TEnum _ | TBits _ | TCont _ _ _ => false
      end.
    Definition leaf_esafe (st : escope) (a : fattr) (t : ty) : bool :=
      is_cont t || fa_pad a ||
      match lookup (fa_name a) (sc_ty st) with
      | Some r => if is_some (fa_cond a) && negb (is_some (fa_calc a)) then match r with RTOpt r => takes t r | _ => false end else takes t r
      | None => false
      end.
    Definition limit_esafe (st : escope) (pend : bool) (len : option expr) : bool := match len with None => true | Some e => pend || small (esafe st e) end.
    Fixpoint unwraps (items : list (fattr * ty)) (st : escope) : option escope :=
      match items with
      | [] => Some st
      | (a, t) :: items =>
          if is_some (fa_calc a) || fa_pad a || is_cont t || is_some (fa_cond a) then unwraps items st
          else match lookup (fa_name a) (sc_ty st) with Some (RTOpt r) => unwraps items (esc_push (fa_name a) r st) | _ => None end
      end.
    Definition field_esafe (k : escope -> bool -> bool -> bool) (a : fattr) (t : ty) (st : escope) (cond pend : bool) : bool :=
      leaf_esafe st a t && forallb (xsafe p fty sg (sc_ty st) ienv) (fa_xs a) && bsafe p fty sg (sc_ty st) ienv (fa_cond a) && k st (cond || is_some (fa_cond a)) pend.
    (** [wt]: a field that waits for the byte length of a later container: the container, the field, its calculation, its check. *)
    Fixpoint items_esafe (its : list (fattr * ty * (escope -> bool -> bool -> bool))) (st : escope) (cond : bool) (wt : option (string * string * expr * (escope -> bool))) : bool :=
      match its with
      | [] => negb (is_some wt)
      | (a, t, k) :: its =>
          let plain :=
            let pend := match wt with Some (on, _, _, _) => String.eqb on (fa_name a) | None => false end in
            field_esafe k a t st cond pend &&
            match wt with
            | None => items_esafe its st cond None
            | Some (on, f, e, chk) =>
                if pend && is_some (cont_len t) then
                  match rewrite_blen [on] e with
                  | Some e' =>
                      match emit fty e' with
                      | RAs (RField n) (TyScalar es) =>
                          let st' := esc_push f (RTInt (es_scalar es)) (esc_hide (blen_name (fa_name a)) st) in
                          String.eqb n (blen_name (fa_name a)) && chk st' && items_esafe its st' cond None
                      | _ => false
                      end
                  | None => false
                  end
                else items_esafe its st cond wt
            end in
          match fa_calc a with
          | Some e =>
              match blen_calls e with
              | Some [] => plain
              | Some [c] =>
                  match wt with
                  | None => negb (is_cont t) && negb (fa_pad a) && items_esafe its st cond (Some (c, fa_name a, e, fun st => field_esafe k a t st cond false))
                  | Some _ => false
                  end
              | _ => false
              end
          | None => plain
          end
      end.
    Fixpoint complex_esafe (a : fattr) (t : ty) (st : escope) (cond pend : bool) {struct t} : bool :=
      if fa_pad a then
        match t with
        | TArr _ (LFixed e) => small (esafe st e)
        | _ => false
        end
      else
        match t with
        | TCont len tg items =>
            negb tg && limit_esafe st pend len &&
            match (if cond then unwraps items st else Some st) with
            | Some st' => items_esafe (map (fun f => (fst f, snd f, complex_esafe (fst f) (snd f))) items) st' cond None
            | None => false
            end
        | t => type_esafe st (if is_some (fa_cond a) then None else Some (fa_name a)) t
        end.
    Definition item_esafe (f : fattr * ty) := (fst f, snd f, complex_esafe (fst f) (snd f)).

    (** The stored fields, then the calculated ones. *)
    Fixpoint refs (l : list (fattr * ty)) (ts : list (string * rty)) (st : escope) : option escope :=
      match l with
      | [] => Some st
      | (a, t) :: l =>
          if is_some (fa_calc a) || fa_pad a then refs l ts st
          else match lookup (fa_name a) ts with Some r => refs l ts (esc_push (fa_name a) r st) | None => None end
      end.
    Definition calc (n : string) (e : expr) (a : aty) (st : escope) : escope :=
      let st' := esc_push n (rty_of a) st in
      match counts (emit fty e) with
      | Some d => match lookup d (sc_ty st) with Some (RTVec _) => if String.eqb n d then st' else esc_count n d st' | _ => st' end
      | None => st'
      end.
    Fixpoint calcs (l : list (fattr * ty)) (st : escope) : option escope :=
      match l with
      | [] => Some st
      | (a, t) :: l =>
          match fa_calc a with
          | Some e =>
              match blen_calls e with
              | Some [] => match esafe st e with Some ty => if flat (rty_of ty) then calcs l (calc (fa_name a) e ty st) else None | None => None end
              | Some _ => calcs l st
              | None => None
              end
          | None => calcs l st
          end
      end.
    Definition inside (items : list (fattr * ty)) (o : option escope) : bool :=
      match o with
      | Some st => match calcs (flatten_items items) st with Some st => items_esafe (map item_esafe items) st false None | None => false end
      | None => false
      end.
    Definition scope0 : escope := {| sc_ty := []; sc_len := [] |}.
    Fixpoint picks (ns : list string) (ts : list (string * rty)) (acc : list (string * rty)) : option (list (string * rty)) :=
      match ns with
      | [] => Some acc
      | n :: ns => match lookup n ts with Some r => picks ns ts ((n, r) :: acc) | None => None end
      end.
    Definition variant_esafe (f : fattr * ty) : bool :=
      bsafe p fty sg [] ienv (fa_cond (fst f)) && negb (fa_pad (fst f)) &&
      match snd f with
      | TCont _ _ sub =>
          match gen_fields p false sub with
          | Some ts => inside sub (match picks (leaf_names (flatten_items sub)) ts [] with Some l => Some {| sc_ty := l; sc_len := [] |} | None => None end)
          | None => false
          end
      | t => forallb (xsafe p fty sg [] ienv) (fa_xs (fst f)) && type_esafe scope0 None t
      end.
    Definition body_esafe (t : ty) : bool :=
      match t with
      | TForeign _ => true
      | TEnum _ | TBits _ => true
      | TCont len true items => limit_esafe scope0 false len && names_once (map (fun f => (fa_name (fst f), tt)) items) && forallb variant_esafe items
      | TCont len false items =>
          limit_esafe scope0 false len &&
          match gen_fields p false items with Some ts => inside items (refs (flatten_items items) ts scope0) | None => false end
      | t => type_esafe scope0 None t
      end.
  End Body.
  Definition decl_esafe (n : string) (ps : list aty) (d : decl) : bool :=
    forallb (fun q => negb (is_some (pm_default q))) (d_params d) && (List.length (d_params d) =? List.length ps)%nat &&
    String.eqb (fa_name (d_attr d)) n && negb (is_some (fa_cond (d_attr d))) &&
    (let ienv := rev (combine (map pm_name (d_params d)) ps) in
     forallb (xsafe p fty sg [] ienv) (fa_xs (d_attr d)) && body_esafe ienv (d_ty d)).
End Check.
