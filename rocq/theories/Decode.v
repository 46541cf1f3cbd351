(** The decoder: coder/decode/*.rs (instruction generation) and the meaning of the
    Rust code compiler/decoder.rs emits for each instruction. *)
From Verif Require Export Gen.

Definition fmap := list (string * nat).

(** coder/decode/instruction.rs:3-20 Constructable. *)
Inductive construct :=
| CStruct (name : string) (items : list (string * nat))
| CTagged (name : string) (item : nat)                       (* TaggedTuple, one item *)
| CVariant (name discr : string) (item : nat)                (* TaggedEnum *)
| CVariantS (name discr : string) (items : list (string * nat)).

(** coder/decode/instruction.rs:22-64 Instruction. *)
Inductive dinstr :=
| DEval (r : nat) (e : expr) (m : fmap)
| DConstruct (r : nat) (c : construct)
| DConstrict (s : target) (r len : nat)
| DWrap (s : target) (r : nat) (x : string) (args : list nat)
| DCondWrap (c : nat) (prelude : list dinstr) (s : target) (r : nat) (x : string) (args : list nat)
| DForeign (s : target) (r : nat) (n : string) (args : list nat)
| DRef (s : target) (r : nat) (n : string) (args : list nat)
| DRepr (d : repr) (r : nat) (s : target)
| DPrim (s : target) (r : nat) (p : prim)
| DPrimArr (s : target) (r : nat) (p : prim) (len : option nat)
| DReprArr (s : target) (r : nat) (d : repr) (len : option nat)
| DLoop (s : target) (stop term : option nat) (out : nat) (body : list dinstr)
| DLoopOut (out item : nat)
| DCond (targets : list nat) (c : nat) (body : list dinstr)   (* targets = interior *)
| DPred (c : nat) (body : list dinstr)
| DReturn (r : nat)
| DError
| DSkip (s : target) (len : nat).

(** coder/decode/mod.rs:16-22 Context: register_count and field_register_map (an
    insertion shadows an older entry of the same name). *)
Record dctx := { dc_rc : nat; dc_map : fmap }.
Definition dgen := gen dinstr dctx.
(** mod.rs:24-30 alloc_register. *)
Definition dfresh : dgen nat :=
  fun c => Some ([], dc_rc c, {| dc_rc := S (dc_rc c); dc_map := dc_map c |}).
Definition dmap : dgen fmap := fun c => Some ([], dc_map c, c).
Definition dinsert (n : string) (r : nat) : dgen unit :=
  fun c => Some ([], tt, {| dc_rc := dc_rc c; dc_map := (n, r) :: dc_map c |}).
(** field_register_map.get(name).expect(..) *)
Definition dget (n : string) : dgen nat :=
  fun c => match lookup n (dc_map c) with Some r => Some ([], r, c) | None => None end.

(** The recurring "alloc a register, push Eval(r, expr, map)". *)
Definition deval (e : expr) : dgen nat :=
  do r <- dfresh; do m <- dmap; do _ <- tell (DEval r e m); gret r.
Fixpoint devals (l : list expr) : dgen (list nat) :=
  match l with
  | [] => gret []
  | e :: l => do r <- deval e; do rs <- devals l; gret (r :: rs)
  end.

Section DecGen.
  Variable p : program.
  Variable rfuel : nat.

  (** array.rs:5-97 decode_array; [rec] is [self.decode_type(source, element)]. *)
  Definition dec_array (rec : dgen nat) (el : ty) (l : lenc) (src : target) : dgen nat :=
    do term <- match l with
               | LTerm e => do r <- deval e; gret (Some r)        (* 6-15 *)
               | _ => gret None
               end;
    do len <- match l with
              | LFixed e => do r <- deval e; gret (Some r)        (* 17-26 *)
              | _ => gret None
              end;
    do output <- dfresh;                                         (* 28 *)
    match (match term with None => kind_of (resolved p rfuel el) | Some _ => KLoop end) with
    | KPrim pr => do _ <- tell (DPrimArr src output pr len); gret output
    | KRepr d => do _ <- tell (DReprArr src output d len); gret output
    | KLoop =>
        do (body, _) <- block (do item <- rec; tell (DLoopOut output item));   (* 89-93 *)
        do _ <- tell (DLoop src len term output body);
        gret output
    end.

  (** mod.rs:67-161 decode_type. *)
  Fixpoint dec_type (t : ty) (src : target) : dgen nat :=
    do output <- dfresh;
    match t with
    | TCont _ _ _ => gfail                                       (* 70-72 unimplemented! *)
    | TArr el l => dec_array (dec_type el src) el l src          (* 73 *)
    | TEnum d => do _ <- tell (DRepr (RpEnum d) output src); gret output
    | TBits d => do _ <- tell (DRepr (RpBits d) output src); gret output
    | TScalar e => do _ <- tell (DPrim src output (PScalar e)); gret output
    | TF32 => do _ <- tell (DPrim src output PF32); gret output
    | TF64 => do _ <- tell (DPrim src output PF64); gret output
    | TBool => do _ <- tell (DPrim src output PBool); gret output
    | TForeign n => do _ <- tell (DForeign src output n []); gret output
    | TRef n args =>                                             (* 127-158 *)
        do rs <- devals args;
        match p n with
        | Some {| d_ty := TForeign f |} => do _ <- tell (DForeign src output f rs); gret output
        | _ => do _ <- tell (DRef src output n rs); gret output
        end
    end.

  (** field.rs:77-127: the transforms, last one first; returns the innermost stream. *)
  Fixpoint dec_xs (xs : list xuse) (src : target) : dgen target :=
    match xs with
    | [] => gret src
    | x :: xs =>
        do cond <- match x_cond x with
                   | Some e => do r <- deval e; gret (Some r)
                   | None => gret None
                   end;
        match cond with
        | Some c =>
            do (prelude, args) <- block (devals (x_args x));
            do s <- dfresh;
            do _ <- tell (DCondWrap c prelude src s (x_name x) args);
            dec_xs xs (TStream s)
        | None =>
            do args <- devals (x_args x);
            do s <- dfresh;
            do _ <- tell (DWrap src s (x_name x) args);
            dec_xs xs (TStream s)
        end
    end.

  (** field.rs:66-133 decode_field_unconditional; [k] is decode_complex_type. *)
  Definition dec_uncond (k : target -> dgen (list nat)) (a : fattr) (src : target) : dgen (list nat) :=
    do s <- dec_xs (rev (fa_xs a)) src;
    k s.

  (** field.rs:32-43 decode_field_condition. *)
  Definition dec_cond (a : fattr) : dgen (option nat) :=
    match fa_cond a with
    | Some e => do r <- deval e; gret (Some r)
    | None => gret None
    end.

  (** field.rs:45-64 decode_field. *)
  Definition dec_field (k : target -> dgen (list nat)) (a : fattr) (src : target) : dgen (list nat) :=
    do c <- dec_cond a;
    if fa_pad a then dec_uncond k a src                           (* 51-53 *)
    else match c with
         | None => dec_uncond k a src
         | Some c =>
             do (body, emitted) <- block (dec_uncond k a src);
             match emitted with
             | [] => gfail                                        (* 56-58 panic! *)
             | _ => do _ <- tell (DCond emitted c body); gret emitted
             end
         end.

  (** the [(name, field_register_map[name])] lists of container.rs:53-66, 96-113. *)
  Fixpoint dec_names (l : list (fattr * ty)) : dgen (list (string * nat)) :=
    match l with
    | [] => gret []
    | (a, t) :: l =>
        if fa_pad a || is_cont t then dec_names l
        else do r <- dget (fa_name a); do rs <- dec_names l; gret ((fa_name a, r) :: rs)
    end.
  Fixpoint dinserts (n : string) (rs : list nat) : dgen unit :=
    match rs with
    | [] => gret tt
    | r :: rs => do _ <- dinsert n r; dinserts n rs
    end.

  (** An item of a container with its decode_complex_type. *)
  Definition ditem := (fattr * ty * (target -> dgen (list nat)))%type.

  (** container.rs:29-44: the children of a struct container in order. *)
  Fixpoint dec_items (its : list ditem) (buf : target) : dgen (list nat) :=
    match its with
    | [] => gret []
    | (a', t', k) :: its =>
        do emitted <- dec_field k a' buf;
        do _ <- (if is_cont t' then gret tt else dinserts (fa_name a') emitted);
        do rest <- dec_items its buf;
        gret (emitted ++ rest)
    end.

  (** container.rs:88-131: one variant of a tagged enum, up to its value. *)
  Definition dec_variant (name : string) (a' : fattr) (t' : ty) (k : target -> dgen (list nat)) (buf : target)
    : dgen nat :=
    do emitted <- dec_uncond k a' buf;
    do tgt <- dfresh;
    if is_cont t' then
      do vs <- dec_names (flatten_ty t');
      do _ <- tell (DConstruct tgt (CVariantS name (fa_name a') vs));
      gret tgt
    else
      match emitted with
      | [] => gfail
      | r :: _ => do _ <- tell (DConstruct tgt (CVariant name (fa_name a') r)); gret tgt
      end.
  (** container.rs:79-146 decode_enum_container. *)
  Fixpoint dec_variants (name : string) (its : list ditem) (buf : target) : dgen (list nat) :=
    match its with
    | [] => do _ <- tell DError; gret []                          (* 141-145 *)
    | (a', t', k) :: its =>
        do c <- dec_cond a';
        match c with
        | Some c =>
            do (body, _) <- block (do tgt <- dec_variant name a' t' k buf; tell (DReturn tgt));
            do _ <- tell (DPred c body);
            dec_variants name its buf
        | None => do tgt <- dec_variant name a' t' k buf; gret [tgt]   (* 137-139 *)
        end
    end.

  (** mod.rs:41-65 decode_complex_type, container.rs:4-77 decode_container,
      decode_struct_container.  [top]: the field is a type declaration. *)
  Fixpoint dec_complex (top : bool) (a : fattr) (t : ty) (src : target) {struct t} : dgen (list nat) :=
    if fa_pad a then                                              (* mod.rs:42-58 *)
      match t with
      | TArr _ (LFixed e) => do r <- deval e; do _ <- tell (DSkip src r); gret []
      | _ => gfail
      end
    else
      match t with
      | TCont len tagged items =>
          let its := map (fun f => (fst f, snd f, dec_complex false (fst f) (snd f))) items in
          do buf <- match len with                                (* container.rs:10-23 *)
                    | Some e => do l <- deval e; do b <- dfresh; do _ <- tell (DConstrict src b l); gret (TStream b)
                    | None => gret src
                    end;
          if tagged then dec_variants (fa_name a) its buf
          else
            do decoded <- dec_items its buf;
            if negb top then gret decoded
            else
              do emitted <- dfresh;
              do its <- dec_names (flatten_items items);
              do _ <- tell (DConstruct emitted (CStruct (fa_name a) its));
              gret [emitted]
      | _ => do r <- dec_type t src; gret [r]
      end.

  (** field.rs:4-30 decode_field_top. *)
  Definition dec_top (d : decl) : dgen unit :=
    do value <- dec_field (dec_complex true (d_attr d) (d_ty d)) (d_attr d) TDirect;
    if (1 <? List.length value)%nat then gfail else
    do value <- match d_ty d, value with
                | (TForeign _ | TCont _ _ _ | TEnum _ | TBits _), _ => gret value
                | _, old :: _ => do r <- dfresh; do _ <- tell (DConstruct r (CTagged (fa_name (d_attr d)) old)); gret [r]
                | _, [] => gret value
                end;
    match value with
    | v :: _ => tell (DReturn v)
    | [] => gret tt
    end.
  Definition dec_code (d : decl) : option (list dinstr) :=
    match dec_top d {| dc_rc := 0; dc_map := [] |} with
    | Some (is, _, _) => Some is
    | None => None
    end.
End DecGen.

(** *** Execution *)

(** A stream variable: bytes of its own ([Cursor], the input, a transform's output),
    at most [n] more bytes of another stream ([Take]), or another stream itself. *)
Inductive stream :=
| SOwn (b : list Z) | STake (parent : option nat) (n : nat) | SAlias (parent : option nat).
Definition streams := list (option nat * stream).   (* newest first *)

Fixpoint avail (k : option nat) (l : streams) : option (list Z) :=
  match l with
  | [] => None
  | (k', s) :: l =>
      if key_eqb k k' then
        match s with
        | SOwn b => Some b
        | STake p n => match avail p l with Some b => Some (firstn n b) | None => None end
        | SAlias p => avail p l
        end
      else avail k l
  end.
Fixpoint consume (k : option nat) (n : nat) (l : streams) : streams :=
  match l with
  | [] => []
  | (k', s) :: l =>
      if key_eqb k k' then
        match s with
        | SOwn b => (k', SOwn (skipn n b)) :: l
        | STake p m => (k', STake p (m - n)) :: consume p n l
        | SAlias p => (k', s) :: consume p n l
        end
      else (k', s) :: consume k n l
  end.

Definition regs := list (nat * val).                 (* newest first *)
Record dst := { ds_regs : regs; ds_strs : streams }.
Inductive dout := DNext (st : dst) | DRet (v : val) (st : dst).

Definition dlet (r : nat) (v : val) (st : dst) : dst :=
  {| ds_regs := (r, v) :: ds_regs st; ds_strs := ds_strs st |}.
Definition dreg (r : nat) (st : dst) : res ioerr val := of_some (assoc r (ds_regs st)).
Definition davail (s : target) (st : dst) : res ioerr (list Z) := of_some (avail (key s) (ds_strs st)).
Definition dskip (s : target) (n : nat) (st : dst) : dst :=
  {| ds_regs := ds_regs st; ds_strs := consume (key s) n (ds_strs st) |}.
Definition dpush (k : option nat) (s : stream) (st : dst) : dst :=
  {| ds_regs := ds_regs st; ds_strs := (k, s) :: ds_strs st |}.
(** Run something that takes the remaining bytes and gives back a value and the
    bytes it left. *)
Definition dtake {A} (s : target) (f : list Z -> res ioerr (A * list Z)) (st : dst) : res ioerr (A * dst) :=
  let! l := davail s st in
  let! (a, rest) := f l in
  Ok (a, dskip s (List.length l - List.length rest) st).

Fixpoint assign (r : nat) (f : val -> option val) (l : regs) : option regs :=
  match l with
  | [] => None
  | (r', v) :: l =>
      if Nat.eqb r r' then match f v with Some v' => Some ((r', v') :: l) | None => None end
      else match assign r f l with Some l' => Some ((r', v) :: l') | None => None end
  end.

(** Leaving a Rust block: variables declared inside go out of scope. *)
Definition truncate {A} (n : nat) (l : list A) : list A := skipn (List.length l - n) l.
Definition dleave (st0 st : dst) : dst :=
  {| ds_regs := truncate (List.length (ds_regs st0)) (ds_regs st);
     ds_strs := truncate (List.length (ds_strs st0)) (ds_strs st) |}.

(** Rust [for _ in 0..n], [while position < len] and the terminator loop of
    decoder.rs:391-443 around a body.  A loop that makes no progress never ends. *)
Fixpoint for_loop (n : nat) (body : dst -> res ioerr dout) (st : dst) : res ioerr dout :=
  match n with
  | O => Ok (DNext st)
  | S n =>
      let! o := body st in
      match o with DNext st => for_loop n body st | DRet v st => Ok (DRet v st) end
  end.
Fixpoint while_loop (fuel : nat) (s : target) (body : dst -> res ioerr dout) (st : dst) : res ioerr dout :=
  match fuel with
  | O => Hang
  | S fuel =>
      let! l := davail s st in
      match l with
      | [] => Ok (DNext st)
      | _ =>
          let! o := body st in
          match o with
          | DRet v st => Ok (DRet v st)
          | DNext st' =>
              let! l' := davail s st' in
              if (List.length l' <? List.length l)%nat then while_loop fuel s body st' else Hang
          end
      end
  end.
Fixpoint zlist_eqb (a b : list Z) : bool :=
  match a, b with
  | [], [] => true
  | x :: a, y :: b => (x =? y) && zlist_eqb a b
  | _, _ => false
  end.
Fixpoint term_loop (fill : nat -> nat) (fuel : nat) (s : target) (term : list Z)
    (body : dst -> res ioerr dout) (st : dst) : res ioerr dout :=
  match fuel with
  | O => Hang
  | S fuel =>
      let! l := davail s st in
      let buf := firstn (fill (List.length l)) l in
      if (List.length buf =? 0)%nat then Ok (DNext st)
      else if (List.length buf <? List.length term)%nat then Hang
      else if zlist_eqb (firstn (List.length term) buf) term then Ok (DNext (dskip s (List.length term) st))
      else
        let! o := body st in
        match o with
        | DRet v st => Ok (DRet v st)
        | DNext st' =>
            let! l' := davail s st' in
            if (List.length l' <? List.length l)%nat then term_loop fill fuel s term body st' else Hang
        end
  end.

Definition read_prims (pr : prim) (m : nat) (l : list Z) : res ioerr (val * list Z) :=
  let! (raw, rest) := read_exact m l in
  Ok (VArr (map (prim_of pr) (chunks (m / prim_size pr) (prim_size pr) raw)), rest).
Definition read_reprs (d : repr) (m : nat) (l : list Z) : res ioerr (val * list Z) :=
  let! (raw, rest) := read_exact m l in
  let! vs := mapM (repr_of d) (chunks (m / size (es_scalar (repr_rep d))) (size (es_scalar (repr_rep d))) raw) in
  Ok (VArr vs, rest).

Section DecRun.
  Variable w : world.
  Variable inputs : string -> option val.
  (** the [decode_sync] of the named declaration. *)
  Variable rec : string -> list val -> list Z -> res ioerr (val * list Z).

  (** compiler/decoder.rs:16-515, one match arm per instruction.  [dblock] runs a
      nested block and leaves it. *)
  Fixpoint drun (i : dinstr) (st : dst) {struct i} : res ioerr dout :=
    let seq := fix seq (l : list dinstr) (st : dst) {struct l} : res ioerr dout :=
      match l with
      | [] => Ok (DNext st)
      | i :: l => let! o := drun i st in match o with DNext st => seq l st | DRet v st => Ok (DRet v st) end
      end in
    match i with
    | DEval r e m =>                                              (* 44-57 *)
        let! v := eval w inputs (fun n => match lookup n m with Some r => assoc r (ds_regs st) | None => None end) e in
        Ok (DNext (dlet r v st))
    | DConstruct r (CTagged n x) => let! v := dreg x st in Ok (DNext (dlet r (VTup v) st))
    | DConstruct r (CStruct n xs) =>
        let! vs := mapM (fun nr => let! v := dreg (snd nr) st in Ok (fst nr, v)) xs in
        Ok (DNext (dlet r (VStruct n vs) st))
    | DConstruct r (CVariant n d x) => let! v := dreg x st in Ok (DNext (dlet r (VVariant n d v) st))
    | DConstruct r (CVariantS n d xs) =>
        let! vs := mapM (fun nr => let! v := dreg (snd nr) st in Ok (fst nr, v)) xs in
        Ok (DNext (dlet r (VVariantS n d vs) st))
    | DConstrict s r len =>                                       (* 146-154 *)
        let! v := dreg len st in
        let! n := limit_of v in
        let! _ := davail s st in
        Ok (DNext (dpush (Some r) (STake (key s) n) st))
    | DWrap s r x args =>                                         (* 155-164 *)
        let! vs := mapM (fun a => dreg a st) args in
        let! (plain, st) := dtake s (w_xdec w x vs) st in
        Ok (DNext (dpush (Some r) (SOwn plain) st))
    | DCondWrap c prelude s r x args =>                           (* 165-208 *)
        let! cv := dreg c st in
        let! b := bool_of cv in
        let! _ := davail s st in
        if b then
          let! o := seq prelude st in
          match o with
          | DRet v st => Ok (DRet v st)
          | DNext st' =>
              let! vs := mapM (fun a => dreg a st') args in
              let! (plain, st'') := dtake s (w_xdec w x vs) (dleave st st') in
              Ok (DNext (dpush (Some r) (SOwn plain) st''))
          end
        else Ok (DNext (dpush (Some r) (SAlias (key s)) st))
    | DForeign s r n args =>                                      (* 209-224 *)
        let! vs := mapM (fun a => dreg a st) args in
        let! (v, st) := dtake s (w_fdec w n vs) st in
        Ok (DNext (dlet r v st))
    | DRef s r n args =>                                          (* 225-243 *)
        let! vs := mapM (fun a => dreg a st) args in
        let! (v, st) := dtake s (rec n vs) st in
        Ok (DNext (dlet r v st))
    | DRepr d r s =>                                              (* 244-266 *)
        let! (v, st) := dtake s (fun l => let! (a, rest) := read_exact (size (es_scalar (repr_rep d))) l in
                                          let! v := repr_of d a in Ok (v, rest)) st in
        Ok (DNext (dlet r v st))
    | DPrim s r pr =>                                             (* 267-302 *)
        let! (v, st) := dtake s (fun l => let! (a, rest) := read_exact (prim_size pr) l in
                                          Ok (prim_of pr a, rest)) st in
        Ok (DNext (dlet r v st))
    | DPrimArr s r PBool _ => Panic                               (* no bool::from_be_bytes *)
    | DPrimArr s r pr (Some len) =>                               (* 303-323 *)
        let! lv := dreg len st in
        let! n := arr_size (w_chk w) (prim_size pr) lv in
        let! (v, st) := dtake s (read_prims pr n) st in
        Ok (DNext (dlet r v st))
    | DPrimArr s r pr None =>                                     (* 324-335 *)
        let! (v, st) := dtake s (fun l =>
          Ok (VArr (map (prim_of pr) (chunks (List.length l / prim_size pr) (prim_size pr) l)), [])) st in
        Ok (DNext (dlet r v st))
    | DReprArr s r d (Some len) =>                                (* 337-361 *)
        let! lv := dreg len st in
        let! n := arr_size (w_chk w) (size (es_scalar (repr_rep d))) lv in
        let! (v, st) := dtake s (read_reprs d n) st in
        Ok (DNext (dlet r v st))
    | DReprArr s r d None =>                                      (* 362-372 *)
        let! (v, st) := dtake s (fun l =>
          let! vs := mapM (repr_of d) (chunks (List.length l / size (es_scalar (repr_rep d)))
                                              (size (es_scalar (repr_rep d))) l) in
          Ok (VArr vs, [])) st in
        Ok (DNext (dlet r v st))
    | DLoop s stop term out body =>                               (* 373-430 *)
        let iter := fun st => let! o := seq body st in
                              match o with DNext st' => Ok (DNext (dleave st st')) | o => Ok o end in
        match stop, term with
        | Some stop, _ =>
            let! v := dreg stop st in
            let! n := len_of v in
            for_loop n iter (dlet out (VArr []) st)
        | None, Some term =>
            let! tv := dreg term st in
            let! tb := u8s_of tv in
            let! l := davail s st in
            term_loop (w_fill w) (S (List.length l)) s tb iter (dlet out (VArr []) st)
        | None, None =>
            let! l := davail s st in
            let st1 := dskip s (List.length l) (dlet out (VArr []) st) in
            let! o := while_loop (S (List.length l)) s iter (dpush (key s) (SOwn l) st1) in
            match o with
            | DNext st' => Ok (DNext {| ds_regs := ds_regs st'; ds_strs := truncate (List.length (ds_strs st1)) (ds_strs st') |})
            | o => Ok o
            end
        end
    | DLoopOut out item =>                                        (* 431-437 *)
        let! v := dreg item st in
        let! r := of_some (assign out (fun o => match o with VArr l => Some (VArr (l ++ [v])) | _ => None end) (ds_regs st)) in
        Ok (DNext {| ds_regs := r; ds_strs := ds_strs st |})
    | DCond targets c body =>                                     (* 438-484 *)
        let! cv := dreg c st in
        let! b := bool_of cv in
        if b then
          let! o := seq body st in
          match o with
          | DRet v st => Ok (DRet v st)
          | DNext st' =>
              let! vs := mapM (fun r => let! v := dreg r st' in Ok (r, VOpt (Some v))) targets in
              let st'' := dleave st st' in
              Ok (DNext {| ds_regs := rev vs ++ ds_regs st''; ds_strs := ds_strs st'' |})
          end
        else Ok (DNext {| ds_regs := rev (map (fun r => (r, VOpt None)) targets) ++ ds_regs st; ds_strs := ds_strs st |})
    | DPred c body =>                                             (* 485-493 *)
        let! cv := dreg c st in
        let! b := bool_of cv in
        if b then
          let! o := seq body st in
          match o with DRet v st => Ok (DRet v st) | DNext st' => Ok (DNext (dleave st st')) end
        else Ok (DNext st)
    | DReturn r => let! v := dreg r st in Ok (DRet v st)          (* 494-499 *)
    | DError => Err EDecode                                       (* 500-504 *)
    | DSkip s len =>                                              (* 505-512 *)
        let! lv := dreg len st in
        let! n := len_of lv in
        let! (_, st) := dtake s (read_exact n) st in
        Ok (DNext st)
    end.
  Fixpoint dseq (l : list dinstr) (st : dst) {struct l} : res ioerr dout :=
    match l with
    | [] => Ok (DNext st)
    | i :: l => let! o := drun i st in match o with DNext st => dseq l st | DRet v st => Ok (DRet v st) end
    end.

  (** The emitted [decode_sync] body on an input: the value returned and the input
      left.  Falling off the end is a rustc error. *)
  Definition drun_top (code : list dinstr) (l : list Z) : res ioerr (val * list Z) :=
    let! o := dseq code {| ds_regs := []; ds_strs := [(None, SOwn l)] |} in
    match o with
    | DRet v st => let! rest := of_some (avail None (truncate 1 (ds_strs st))) in Ok (v, rest)
    | DNext _ => Panic
    end.
End DecRun.

(** [T::decode_sync(reader, args)] for the declaration named [n] of program [p];
    [fuel] bounds the nesting of declarations (Rust recursion).  A compiler panic or a
    missing declaration is [Panic]. *)
Fixpoint decode (w : world) (p : program) (rf : nat) (fuel : nat) (n : string) (args : list val) (l : list Z)
  : res ioerr (val * list Z) :=
  match fuel with
  | O => Hang
  | S fuel =>
      let! d := of_some (p n) in
      let! code := of_some (dec_code p rf d) in
      let! inp := bind_params w (d_params d) args [] in
      drun_top w (fun x => lookup x inp) (decode w p rf fuel) code l
  end.
