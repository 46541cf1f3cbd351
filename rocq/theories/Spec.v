(** Reference semantics of the wire format: what bytes a type stands for.

    This is the specification the generated coders are compared with.  It is written
    directly on types and values, with no registers, instructions, buffers or
    streams: [sd_*] read a value from the front of a byte string and return the rest,
    [se_*] return the bytes of a value together with the value a reader gets back
    (calculated fields recomputed, absent conditional fields empty).

    [se_*] take a mode: [None] describes exactly what the encoder writes; [Some g]
    is the checked semantics, which refuses values that do not have an unambiguous
    encoding: contents that do not have the declared length, arrays longer than
    declared, elements that look like the terminator or take no bytes, enum payloads
    that alias a named variant, undeclared flags, tagged values whose condition does
    not hold, and foreign values and transform inputs outside [g]. *)
From Verif Require Export Encode.

Definition env := list (string * val).
Record good := { g_f : string -> list val -> val -> bool; g_x : string -> list val -> list Z -> bool }.

Definition refuse {A} (m : option good) (ok : bool) (k : res ioerr A) : res ioerr A :=
  match m with
  | Some _ => if ok then k else Err EEncode
  | None => k
  end.

(** Does the enum value or flag set read back as itself? *)
Definition evariant_eqb (x y : evariant) : bool :=
  match x, y with
  | VNamed n, VNamed m => String.eqb n m
  | VDefault n a, VDefault m b => String.eqb n m && (a =? b)
  | _, _ => false
  end.
Definition repr_canon (r : repr) (v : val) : bool :=
  match r, v with
  | RpEnum d, VEnum _ x =>
      match to_repr (en_items d) x with
      | Some z => match from_repr (en_items d) z with Ok y => evariant_eqb y x | _ => false end
      | None => false
      end
  | RpBits d, VBits _ z =>
      match bf_from_repr (es_scalar (bf_rep d)) (bf_items d) z with Ok _ => true | _ => false end
  | _, _ => false
  end.

(** The leaves a field contributes to the generated struct. *)
Definition leaf (f : fattr * ty) : bool := negb (fa_pad (fst f) || is_cont (snd f)).
Definition leaf_names (l : list (fattr * ty)) : list string := map (fun f => fa_name (fst f)) (filter leaf l).

Definition is_some {A} (o : option A) : bool := match o with Some _ => true | None => false end.
Definition wrap_some (vs : list (string * val)) : list (string * val) := map (fun nv => (fst nv, VOpt (Some (snd nv)))) vs.
Definition all_none (ns : list string) : list (string * val) := map (fun n => (n, VOpt None)) ns.

(** [n] elements; elements up to the end; elements up to a terminator. *)
Fixpoint sd_times (f : list Z -> res ioerr (val * list Z)) (n : nat) (l : list Z) : res ioerr (list val * list Z) :=
  match n with
  | O => Ok ([], l)
  | S n => let! (v, l) := f l in let! (vs, l) := sd_times f n l in Ok (v :: vs, l)
  end.
Fixpoint sd_all (f : list Z -> res ioerr (val * list Z)) (fuel : nat) (l : list Z) : res ioerr (list val) :=
  match fuel with
  | O => Hang
  | S fuel =>
      match l with
      | [] => Ok []
      | _ => let! (v, l') := f l in
             if (List.length l' <? List.length l)%nat then let! vs := sd_all f fuel l' in Ok (v :: vs) else Hang
      end
  end.
Fixpoint sd_until (fill : nat -> nat) (term : list Z) (f : list Z -> res ioerr (val * list Z)) (fuel : nat) (l : list Z)
  : res ioerr (list val * list Z) :=
  match fuel with
  | O => Hang
  | S fuel =>
      let buf := firstn (fill (List.length l)) l in
      if (List.length buf =? 0)%nat then Ok ([], l)
      else if (List.length buf <? List.length term)%nat then Hang
      else if zlist_eqb (firstn (List.length term) buf) term then Ok ([], skipn (List.length term) l)
      else
        let! (v, l') := f l in
        if (List.length l' <? List.length l)%nat
        then let! (vs, l'') := sd_until fill term f fuel l' in Ok (v :: vs, l'') else Hang
  end.

(** The last chunk that fits. *)
Definition sd_chunks (k : nat) (l : list Z) : list (list Z) := chunks (List.length l / k) k l.

Section Ref.
  Variable w : world.
  Variable p : program.
  Variable rf : nat.
  Variable inputs : string -> option val.

  Definition ev (en : env) (e : expr) : res ioerr val := eval w inputs (fun n => lookup n en) e.

  (** ** Reading *)
  Variable rec : string -> list val -> list Z -> res ioerr (val * list Z).

  Definition sd_prim (pr : prim) (l : list Z) : res ioerr (val * list Z) :=
    let! (a, rest) := read_exact (prim_size pr) l in Ok (prim_of pr a, rest).
  Definition sd_repr (d : repr) (l : list Z) : res ioerr (val * list Z) :=
    let! (a, rest) := read_exact (size (es_scalar (repr_rep d))) l in
    let! v := repr_of d a in Ok (v, rest).

  Definition sd_arr (f : list Z -> res ioerr (val * list Z)) (en : env) (el : ty) (lc : lenc) (l : list Z)
    : res ioerr (val * list Z) :=
    match lc with
    | LFixed e =>
        let! nv := ev en e in
        match kind_of (resolved p rf el) with
        | KPrim PBool => Panic
        | KPrim pr => let! n := arr_size (w_chk w) (prim_size pr) nv in read_prims pr n l
        | KRepr d => let! n := arr_size (w_chk w) (size (es_scalar (repr_rep d))) nv in read_reprs d n l
        | KLoop => let! n := len_of nv in let! (vs, l) := sd_times f n l in Ok (VArr vs, l)
        end
    | LRest =>
        match kind_of (resolved p rf el) with
        | KPrim PBool => Panic
        | KPrim pr => Ok (VArr (map (prim_of pr) (sd_chunks (prim_size pr) l)), [])
        | KRepr d => let! vs := mapM (repr_of d) (sd_chunks (size (es_scalar (repr_rep d))) l) in Ok (VArr vs, [])
        | KLoop => let! vs := sd_all f (S (List.length l)) l in Ok (VArr vs, [])
        end
    | LTerm e =>
        let! tv := ev en e in
        let! tb := u8s_of tv in
        let! (vs, l) := sd_until (w_fill w) tb f (S (List.length l)) l in
        Ok (VArr vs, l)
    end.

  Fixpoint sd_type (en : env) (t : ty) (l : list Z) {struct t} : res ioerr (val * list Z) :=
    match t with
    | TScalar e => sd_prim (PScalar e) l
    | TF32 => sd_prim PF32 l
    | TF64 => sd_prim PF64 l
    | TBool => sd_prim PBool l
    | TEnum d => sd_repr (RpEnum d) l
    | TBits d => sd_repr (RpBits d) l
    | TForeign n => w_fdec w n [] l
    | TRef n args =>
        let! vs := mapM (ev en) args in
        match p n with
        | Some {| d_ty := TForeign f |} => w_fdec w f vs l
        | _ => rec n vs l
        end
    | TArr el lc => sd_arr (sd_type en el) en el lc l
    | TCont _ _ _ => Panic
    end.

  (** Undo the transforms, last one first. *)
  Fixpoint sd_xs {A} (en : env) (xs : list xuse) (k : list Z -> res ioerr (A * list Z)) (l : list Z)
    : res ioerr (A * list Z) :=
    match xs with
    | [] => k l
    | x :: xs =>
        let! b := match x_cond x with Some e => let! v := ev en e in bool_of v | None => Ok true end in
        if b then
          let! vs := mapM (ev en) (x_args x) in
          let! (plain, rest) := w_xdec w (x_name x) vs l in
          let! (a, _) := sd_xs en xs k plain in
          Ok (a, rest)
        else sd_xs en xs k l
    end.

  (** At most the declared number of bytes. *)
  Definition sd_limit {A} (en : env) (len : option expr) (k : list Z -> res ioerr (A * list Z)) (l : list Z)
    : res ioerr (A * list Z) :=
    match len with
    | None => k l
    | Some e =>
        let! v := ev en e in
        let! n := limit_of v in
        let! (a, rest) := k (firstn n l) in
        Ok (a, rest ++ skipn n l)
    end.

  Definition vals := list (string * val).
  Definition sditem := (fattr * ty * (env -> list Z -> res ioerr (vals * list Z)))%type.

  Definition sd_field (f : sditem) (en : env) (l : list Z) : res ioerr (vals * list Z) :=
    let '(a, t, k) := f in
    let body := sd_xs en (rev (fa_xs a)) (k en) in
    match fa_cond a with
    | None => body l
    | Some e =>
        let! c := ev en e in
        if fa_pad a then body l else
        let! b := bool_of c in
        if b then let! (vs, l) := body l in Ok (wrap_some vs, l)
        else Ok (all_none (leaf_names (flatten_field (a, t))), l)
    end.
  Fixpoint sd_items (its : list sditem) (en : env) (l : list Z) : res ioerr (vals * list Z) :=
    match its with
    | [] => Ok ([], l)
    | f :: its =>
        let! (vs, l) := sd_field f en l in
        let! (vs', l) := sd_items its (rev vs ++ en) l in
        Ok (vs ++ vs', l)
    end.

  (** A nested field: its leaves in order. *)
  Fixpoint sd_complex (a : fattr) (t : ty) (en : env) (l : list Z) {struct t} : res ioerr (vals * list Z) :=
    if fa_pad a then
      match t with
      | TArr _ (LFixed e) =>
          let! v := ev en e in let! n := len_of v in
          let! (_, rest) := read_exact n l in Ok ([], rest)
      | _ => Panic
      end
    else
      match t with
      | TCont len tagged items =>
          if tagged then Panic else
          sd_limit en len (sd_items (map (fun f => (fst f, snd f, sd_complex (fst f) (snd f))) items) en) l
      | _ => let! (v, l) := sd_type en t l in Ok ([(fa_name a, v)], l)
      end.
  Definition sd_item (f : fattr * ty) : sditem := (fst f, snd f, sd_complex (fst f) (snd f)).

  (** The first variant whose condition holds. *)
  Fixpoint sd_variants (name : string) (items : list (fattr * ty)) (l : list Z) : res ioerr (val * list Z) :=
    match items with
    | [] => Err EDecode
    | (a, t) :: items =>
        let! b := match fa_cond a with Some e => let! v := ev [] e in bool_of v | None => Ok true end in
        if b then
          let! (vs, l) := sd_xs [] (rev (fa_xs a)) (sd_complex a t []) l in
          if is_cont t then Ok (VVariantS name (fa_name a) vs, l)
          else match vs with
               | (_, v) :: _ => Ok (VVariant name (fa_name a) v, l)
               | [] => Panic
               end
        else sd_variants name items l
    end.

  Definition sd_top (d : decl) (l : list Z) : res ioerr (val * list Z) :=
    let a := d_attr d in
    sd_xs [] (rev (fa_xs a)) (fun l =>
      match d_ty d with
      | TCont len true items => sd_limit [] len (sd_variants (fa_name a) items) l
      | TCont len false items =>
          let! (vs, l) := sd_limit [] len (sd_items (map sd_item items) []) l in
          Ok (VStruct (fa_name a) vs, l)
      | TEnum _ | TBits _ | TForeign _ => sd_type [] (d_ty d) l
      | t => let! (v, l) := sd_type [] t l in Ok (VTup v, l)
      end) l.

  (** ** Writing *)
  Variable m : option good.
  Variable erec : string -> list val -> val -> res ioerr (list Z * val).

  Definition se_prim (pr : prim) (v : val) : res ioerr (list Z * val) :=
    let! b := prim_enc pr v in Ok (b, v).
  Definition se_repr (d : repr) (v : val) : res ioerr (list Z * val) :=
    let! b := repr_enc d v in refuse m (repr_canon d v) (Ok (b, v)).
  Definition se_foreign (f : string) (vs : list val) (v : val) : res ioerr (list Z * val) :=
    let! b := w_fenc w f vs v in
    refuse m (match m with Some g => g_f g f vs v | None => true end) (Ok (b, v)).

  Definition arr_of (v : val) : res ioerr (list val) := match v with VArr l => Ok l | _ => Panic end.
  (** No element is empty, and none of the suffixes starts with the terminator. *)
  Fixpoint no_term (term : list Z) (bs : list (list Z)) : bool :=
    match bs with
    | [] => true
    | b :: rest =>
        negb (List.length b =? 0)%nat
        && negb (zlist_eqb (firstn (List.length term) (concat bs ++ term)) term)
        && no_term term rest
    end.
  Definition all_nonempty (bs : list (list Z)) : bool := forallb (fun b => negb (List.length b =? 0)%nat) bs.

  (** The code writes [n] elements by index: elements beyond [n] are dropped, a missing
      one is an index panic after the others were written. *)
  Fixpoint se_times (f : val -> res ioerr (list Z * val)) (n : nat) (vs : list val) : res ioerr (list (list Z * val)) :=
    match n, vs with
    | O, _ => Ok []
    | S _, [] => Panic
    | S n, v :: vs => let! x := f v in let! xs := se_times f n vs in Ok (x :: xs)
    end.

  (** An array that can be in memory: at most isize::MAX bytes. *)
  Definition fits (k : nat) (vs : list val) : bool := Z.of_nat (List.length vs) * Z.of_nat k <? 2 ^ 63.

  Definition se_arr (f : val -> res ioerr (list Z * val)) (en : env) (el : ty) (lc : lenc) (v : val)
    : res ioerr (list Z * val) :=
    match lc with
    | LFixed e =>
        let! nv := ev en e in
        match kind_of (resolved p rf el) with
        | KPrim PBool => Panic
        | KPrim pr =>
            let! vs := arr_of v in
            let! z := of_some (vint nv) in
            if (z mod 2 ^ 64 =? Z.of_nat (List.length vs)) then
              let! bs := mapM (prim_enc pr) vs in
              refuse m ((z =? Z.of_nat (List.length vs)) && fits (prim_size pr) vs) (Ok (concat bs, v))
            else Panic
        | KRepr d =>
            let! vs := arr_of v in
            let! z := of_some (vint nv) in
            if (z mod 2 ^ 64 =? Z.of_nat (List.length vs)) then
              let! bs := mapM (repr_enc d) vs in
              refuse m ((z =? Z.of_nat (List.length vs)) && fits (size (es_scalar (repr_rep d))) vs && forallb (repr_canon d) vs) (Ok (concat bs, v))
            else Panic
        | KLoop =>
            let! z := of_some (vint nv) in
            let! vs := (if (Z.to_nat z =? 0)%nat then Ok (match v with VArr l => l | _ => [] end) else arr_of v) in
            let! xs := se_times f (Z.to_nat z) vs in
            refuse m (match v with VArr _ => true | _ => false end && (z =? Z.of_nat (List.length vs)) && fits 1 vs)
                     (Ok (concat (map fst xs), VArr (map snd xs)))
        end
    | LRest =>
        match kind_of (resolved p rf el) with
        | KPrim PBool => Panic
        | KPrim pr => let! vs := arr_of v in let! bs := mapM (prim_enc pr) vs in Ok (concat bs, v)
        | KRepr d =>
            let! vs := arr_of v in let! bs := mapM (repr_enc d) vs in
            refuse m (forallb (repr_canon d) vs) (Ok (concat bs, v))
        | KLoop =>
            let! vs := arr_of v in
            let! xs := mapM f vs in
            refuse m (all_nonempty (map fst xs)) (Ok (concat (map fst xs), VArr (map snd xs)))
        end
    | LTerm e =>
        let! tv := ev en e in
        let! vs := arr_of v in
        let! xs := mapM f vs in
        let! ts := arr_of tv in
        let! bs := mapM (prim_enc (PScalar u8be)) ts in
        refuse m (no_term (concat bs) (map fst xs)) (Ok (concat (map fst xs) ++ concat bs, VArr (map snd xs)))
    end.

  Fixpoint se_type (en : env) (t : ty) (v : val) {struct t} : res ioerr (list Z * val) :=
    match t with
    | TScalar e => se_prim (PScalar e) v
    | TF32 => se_prim PF32 v
    | TF64 => se_prim PF64 v
    | TBool => se_prim PBool v
    | TEnum d => se_repr (RpEnum d) v
    | TBits d => se_repr (RpBits d) v
    | TForeign n => se_foreign n [] v
    | TRef n args =>
        let! vs := mapM (ev en) args in
        match p n with
        | Some {| d_ty := TForeign f |} => se_foreign f vs v
        | _ => erec n vs v
        end
    | TArr el lc => se_arr (se_type en el) en el lc v
    | TCont _ _ _ => Panic
    end.

  (** Apply the transforms, first one outermost. *)
  Fixpoint se_xs {A} (en : env) (xs : list xuse) (k : res ioerr (list Z * A)) : res ioerr (list Z * A) :=
    match xs with
    | [] => k
    | x :: xs =>
        let! c := match x_cond x with Some e => let! v := ev en e in bool_of v | None => Ok true end in
        if c then
          let! vs := mapM (ev en) (x_args x) in
          let! (b, a) := se_xs en xs k in
          let! b' := w_xenc w (x_name x) vs b in
          refuse m (match m with Some g => g_x g (x_name x) vs b | None => true end) (Ok (b', a))
        else se_xs en xs k
    end.

  (** An item: attributes, type, and the encoding of its contents given the
      environment, the value (of a leaf), whether it is inside a conditional container
      and whether an earlier field waits for its length. *)
  Definition seitem := (fattr * ty * (env -> val -> bool -> bool -> res ioerr (list Z * vals)))%type.

  Definition unwrap_opt (v : val) : res ioerr val :=
    match v with VOpt (Some x) => Ok x | VOpt None => Err EEncode | _ => Panic end.

  (** Result: bytes, leaves, and the length of the contents before transforms. *)
  Definition se_field (f : seitem) (en : env) (v : val) (cond pend : bool) : res ioerr (list Z * (vals * nat)) :=
    let '(a, t, k) := f in
    let body v cond := se_xs en (fa_xs a) (let! v := v in let! (b, vs) := k en v cond pend in Ok (b, (vs, List.length b))) in
    match fa_cond a with
    | None => body (Ok v) cond
    | Some e =>
        let! c := ev en e in
        let! c := bool_of c in
        if c then
          let! (b, (vs, n)) := body (if negb (is_cont t) && negb (is_some (fa_calc a)) && negb (fa_pad a)
                                     then unwrap_opt v else Ok v) true in
          Ok (b, (wrap_some vs, n))
        else Ok ([], (all_none (leaf_names (flatten_field (a, t))), O))
    end.

  Definition cont_len (t : ty) : option expr := match t with TCont len _ _ => len | _ => None end.

  (** The field that waits for the byte length of a later container: the container's
      name, the field, the calculation, and what was written since. *)
  Record waiting := { wt_on : string; wt_item : seitem; wt_calc : expr; wt_bytes : list Z; wt_vals : vals }.

  Fixpoint se_items (its : list seitem) (en : env) (cond : bool) (out : list Z) (vs0 : vals) (wt : option waiting)
    : res ioerr (list Z * vals) :=
    match its with
    | [] => match wt with None => Ok (out, vs0) | Some _ => Panic end
    | (a, t, k) as f :: its =>
        let plain :=
          let! v := (if is_cont t || fa_pad a then Ok (VBool false) else of_some (lookup (fa_name a) en)) in
          let pend := match wt with Some x => String.eqb (wt_on x) (fa_name a) | None => false end in
          let! (b, (vs, n)) := se_field f en v cond pend in
          match wt with
          | None => se_items its en cond (out ++ b) (vs0 ++ vs) None
          | Some x =>
              if pend && is_some (cont_len t) then
                let en' := (blen_name (fa_name a), VInt U64 (Z.of_nat n)) :: en in
                let! e' := of_some (rewrite_blen [wt_on x] (wt_calc x)) in
                let! cv := ev en' e' in
                let en'' := (fa_name (fst (fst (wt_item x))), cv) :: en' in
                let! (b0, (vs1, _)) := se_field (wt_item x) en'' cv cond false in
                let next := se_items its en'' cond (out ++ b0 ++ wt_bytes x ++ b) (vs0 ++ vs1 ++ wt_vals x ++ vs) None in
                match m, cont_len t with
                | Some _, Some le =>
                    let! lv := ev en'' le in
                    let! lim := limit_of lv in
                    if (lim =? n)%nat then next else Err EEncode
                | _, _ => next
                end
              else se_items its en cond out vs0
                     (Some {| wt_on := wt_on x; wt_item := wt_item x; wt_calc := wt_calc x;
                              wt_bytes := wt_bytes x ++ b; wt_vals := wt_vals x ++ vs |})
          end in
        match fa_calc a with
        | Some e =>
            match blen_calls e with
            | Some [] => plain
            | Some [c] =>
                match wt with
                | None => se_items its en cond out vs0
                            (Some {| wt_on := c; wt_item := f; wt_calc := e; wt_bytes := []; wt_vals := [] |})
                | Some _ => Panic
                end
            | _ => Panic
            end
        | None => plain
        end
    end.

  (** Fields of a conditional container are stored as options; its own unconditional
      leaves must be present. *)
  Fixpoint se_unwraps (items : list (fattr * ty)) (en : env) : res ioerr env :=
    match items with
    | [] => Ok en
    | (a, t) :: items =>
        if is_some (fa_calc a) || fa_pad a || is_cont t || is_some (fa_cond a) then se_unwraps items en
        else
          let! v := of_some (lookup (fa_name a) en) in
          let! x := unwrap_opt v in
          se_unwraps items ((fa_name a, x) :: en)
    end.

  (** Contents of a length-constrained container. *)
  Definition se_limit {A} (en : env) (len : option expr) (pend : bool) (k : res ioerr (list Z * A)) : res ioerr (list Z * A) :=
    match len with
    | None => k
    | Some e =>
        if pend then k else
        let! v := ev en e in
        let! _ := len_of v in
        let! (b, a) := k in
        refuse m (match limit_of v with Ok n => (n =? List.length b)%nat | _ => false end) (Ok (b, a))
    end.

  Fixpoint se_complex (a : fattr) (t : ty) (en : env) (v : val) (cond pend : bool) {struct t}
    : res ioerr (list Z * vals) :=
    if fa_pad a then
      match t with
      | TArr _ (LFixed e) => let! v := ev en e in let! n := len_of v in Ok (repeat 0 n, [])
      | _ => Panic
      end
    else
      match t with
      | TCont len tagged items =>
          if tagged then Panic else
          se_limit en len pend (
            let! en' := (if cond then se_unwraps items en else Ok en) in
            se_items (map (fun f => (fst f, snd f, se_complex (fst f) (snd f))) items) en' cond [] [] None)
      | _ => let! (b, v') := se_type en t v in Ok (b, [(fa_name a, v')])
      end.
  Definition se_item (f : fattr * ty) : seitem := (fst f, snd f, se_complex (fst f) (snd f)).

  (** The stored fields of a struct, then the calculated ones that need no byte length. *)
  Fixpoint se_refs (l : list (fattr * ty)) (fs : list (string * val)) (en : env) : res ioerr env :=
    match l with
    | [] => Ok en
    | (a, t) :: l =>
        if is_some (fa_calc a) || fa_pad a then se_refs l fs en
        else let! v := of_some (lookup (fa_name a) fs) in se_refs l fs ((fa_name a, v) :: en)
    end.
  Fixpoint se_calcs (l : list (fattr * ty)) (en : env) : res ioerr env :=
    match l with
    | [] => Ok en
    | (a, t) :: l =>
        match fa_calc a with
        | Some e =>
            match blen_calls e with
            | Some [] => let! v := ev en e in se_calcs l ((fa_name a, v) :: en)
            | Some _ => se_calcs l en
            | None => Panic
            end
        | None => se_calcs l en
        end
    end.
  Definition fields_of (v : val) : res ioerr (list (string * val)) := match v with VStruct _ fs => Ok fs | _ => Panic end.

  Definition se_struct (items : list (fattr * ty)) (v : val) : res ioerr (list Z * vals) :=
    let! en := (if existsb (fun f => negb (is_some (fa_calc (fst f))) && negb (fa_pad (fst f))) (flatten_items items)
                then let! fs := fields_of v in se_refs (flatten_items items) fs []
                else Ok []) in
    let! en := se_calcs (flatten_items items) en in
    se_items (map se_item items) en false [] [] None.

  Fixpoint se_variants (name : string) (items : list (fattr * ty)) (v : val) : res ioerr (list Z * val) :=
    match items with
    | [] => refuse m false (Ok ([], v))
    | (a, t) :: items =>
        let! c := match fa_cond a with Some e => let! v := ev [] e in bool_of v | None => Ok true end in
        if c then
          match v with
          | VVariant n d x =>
              if String.eqb name n then
                if String.eqb (fa_name a) d then
                  if is_cont t then Panic else
                  let! (b, vs) := se_xs [] (fa_xs a) (se_complex a t [] x false false) in
                  match vs with
                  | (_, x') :: _ => Ok (b, VVariant name (fa_name a) x')
                  | [] => Panic
                  end
                else Err EEncode
              else Panic
          | VVariantS n d fs =>
              if String.eqb name n then
                if String.eqb (fa_name a) d then
                  match t with
                  | TCont len _ sub =>
                      let! en := (let! l := mapM (fun n => let! x := of_some (lookup n fs) in Ok (n, x)) (leaf_names (flatten_items sub)) in
                                  Ok (rev l)) in
                      let! en := se_calcs (flatten_items sub) en in
                      let! (b, vs) := se_items (map se_item sub) en false [] [] None in
                      refuse m (negb (is_some len) && match fa_xs a with [] => true | _ => false end)
                             (Ok (b, VVariantS name (fa_name a) vs))
                  | _ => Panic
                  end
                else Err EEncode
              else Panic
          | _ => Panic
          end
        else se_variants name items v
    end.

  Definition se_top (d : decl) (v : val) : res ioerr (list Z * val) :=
    let a := d_attr d in
    match d_ty d with
    | TForeign _ => Ok ([], v)
    | TCont len true items =>
        se_xs [] (fa_xs a) (se_limit [] len false (se_variants (fa_name a) items v))
    | TCont len false items =>
        se_xs [] (fa_xs a) (let! (b, vs) := se_limit [] len false (se_struct items v) in Ok (b, VStruct (fa_name a) vs))
    | TEnum _ | TBits _ => se_xs [] (fa_xs a) (se_type [] (d_ty d) v)
    | t =>
        match v with
        | VTup x => se_xs [] (fa_xs a) (let! (b, x') := se_type [] t x in Ok (b, VTup x'))
        | _ => Panic
        end
    end.
End Ref.

(** Whole declarations. *)
Fixpoint sdecode (w : world) (p : program) (rf : nat) (fuel : nat) (n : string) (args : list val) (l : list Z)
  : res ioerr (val * list Z) :=
  match fuel with
  | O => Hang
  | S fuel =>
      let! d := of_some (p n) in
      let! inp := bind_params w (d_params d) args [] in
      sd_top w p rf (fun x => lookup x inp) (sdecode w p rf fuel) d l
  end.
Fixpoint sencode (w : world) (p : program) (rf : nat) (m : option good) (fuel : nat) (n : string) (args : list val) (v : val)
  : res ioerr (list Z * val) :=
  match fuel with
  | O => Hang
  | S fuel =>
      let! d := of_some (p n) in
      let! inp := bind_params w (d_params d) args [] in
      se_top w p rf (fun x => lookup x inp) m (sencode w p rf m fuel) d v
  end.
