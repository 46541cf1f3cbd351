(** The encoder: coder/encode/*.rs (instruction generation) and the meaning of the
    Rust code compiler/encoder.rs emits for each instruction. *)
From Verif Require Export Decode.

(** coder/mod.rs:8-14 FieldRef.  [Ref] ([&x]) does not change the value and is
    dropped. *)
Inductive fref := FName (n : string) | FIdx (r : nat) | FTup.

(** coder/encode/instruction.rs:8-76 Instruction.  EncodeRef carries the declaration
    of the source's Rust type (static method dispatch at encoder.rs:185-204). *)
Inductive einstr :=
| NEval (r : nat) (e : expr)
| NGetField (r src : nat) (ops : list fref)
| NGetRef (r : nat) (n : string)
| NSetRef (n : string) (r : nat)
| NAllocBuf (buf len : nat)
| NAllocDyn (buf : nat)
| NWrap (s : target) (r : nat) (x : string) (args : list nat)
| NCondWrap (c : nat) (prelude : list einstr) (s : target) (r owned : nat) (x : string) (args : list nat)
| NEndStream (r : nat)
| NEmitBuf (t : target) (buf : nat)
| NForeign (t : target) (src : nat) (n : string) (args : list nat)
| NRef (t : target) (src : nat) (n : string) (args : list nat)
| NRepr (t : target) (src : nat) (d : repr)
| NPrim (t : target) (src : nat) (p : prim)
| NPrimArr (t : target) (src : nat) (p : prim) (len : option nat)
| NReprArr (t : target) (src : nat) (d : repr) (len : option nat)
| NPad (t : target) (len : nat)
| NLoop (idx stop : nat) (body : list einstr)
| NGetLen (r src : nat)
| NDrop (r : nat)
| NNullCheck (src r : nat)
| NCond (c : nat) (body : list einstr)                  (* if_false is always empty *)
| NUnwrapEnum (n d : string) (src r : nat)
| NUnwrapEnumS (n d : string) (src : nat) (rs : list (string * nat))
| NBreakBlock (body : list einstr)
| NBreak.

(** coder/encode/mod.rs:23-31 Context. *)
Record ectx := { ec_rc : nat; ec_resolved : list (string * nat); ec_pending : list string }.
Definition egen := gen einstr ectx.
Definition efresh : egen nat :=
  fun c => Some ([], ec_rc c, {| ec_rc := S (ec_rc c); ec_resolved := ec_resolved c; ec_pending := ec_pending c |}).
Definition eresolved (n : string) : egen (option nat) := fun c => Some ([], lookup n (ec_resolved c), c).
Definition ers_insert (n : string) (r : nat) : egen unit :=
  fun c => Some ([], tt, {| ec_rc := ec_rc c; ec_resolved := (n, r) :: ec_resolved c; ec_pending := ec_pending c |}).
Definition mem (n : string) (l : list string) : bool := existsb (String.eqb n) l.
Definition epending (n : string) : egen bool := fun c => Some ([], mem n (ec_pending c), c).
Definition epend (n : string) : egen unit :=
  fun c => Some ([], tt, {| ec_rc := ec_rc c; ec_resolved := ec_resolved c; ec_pending := n :: ec_pending c |}).
Definition eunpend (n : string) : egen unit :=
  fun c => Some ([], tt, {| ec_rc := ec_rc c; ec_resolved := ec_resolved c;
                            ec_pending := filter (fun m => negb (String.eqb n m)) (ec_pending c) |}).

Definition eeval (e : expr) : egen nat := do r <- efresh; do _ <- tell (NEval r e); gret r.
Fixpoint eevals (l : list expr) : egen (list nat) :=
  match l with
  | [] => gret []
  | e :: l => do r <- eeval e; do rs <- eevals l; gret (r :: rs)
  end.

(** container.rs:347-393 blen_calls: the fields named in [blen(field)] calls, without
    duplicates; [None]: a blen of something that is not a field (panic).
    Simplification: the HashSet's arbitrary order is the order of occurrence; EncOrd.v allows any order and
    P_EncOrd.v proves that it makes no difference. *)
Definition add_name (n : string) (l : list string) : list string := if mem n l then l else l ++ [n].
Fixpoint blen_calls (e : expr) : option (list string) :=
  let both a b := match a, b with Some x, Some y => Some (fold_left (fun l n => add_name n l) y x) | _, _ => None end in
  match e with
  | EBin _ l r => both (blen_calls l) (blen_calls r)
  | EUn _ e => blen_calls e
  | ECast e _ => blen_calls e
  | EIndex a i => both (blen_calls a) (blen_calls i)
  | ETern c a b => both (both (blen_calls c) (blen_calls a)) (blen_calls b)
  | EMember t _ _ => blen_calls t
  | ECall f args =>
      let inner := (fix go l := match l with [] => Some [] | x :: l => both (blen_calls x) (go l) end) args in
      if String.eqb f "blen" then
        match inner, args with
        | Some ns, EField n _ :: _ => Some (add_name n ns)
        | _, _ => None
        end
      else inner
  | _ => Some []
  end.
(** container.rs:282-345 rewrite_blen_calls with the map [X -> __blen_X]; [None]: panic. *)
Definition blen_name (n : string) : string := String.append "__blen_" n.
Fixpoint rewrite_blen (known : list string) (e : expr) : option expr :=
  match e with
  | EBin op l r => match rewrite_blen known l, rewrite_blen known r with Some l, Some r => Some (EBin op l r) | _, _ => None end
  | EUn op e => match rewrite_blen known e with Some e => Some (EUn op e) | _ => None end
  | ECast e t => match rewrite_blen known e with Some e => Some (ECast e t) | _ => None end
  | EIndex a i => match rewrite_blen known a, rewrite_blen known i with Some a, Some i => Some (EIndex a i) | _, _ => None end
  | ETern c a b => match rewrite_blen known c, rewrite_blen known a, rewrite_blen known b with
                   | Some c, Some a, Some b => Some (ETern c a b) | _, _, _ => None end
  | EMember t f z => match rewrite_blen known t with Some t => Some (EMember t f z) | _ => None end
  | ECall f args =>
      match (fix go l := match l with
             | [] => Some []
             | x :: l => match rewrite_blen known x, go l with Some x, Some l => Some (x :: l) | _, _ => None end
             end) args with
      | Some args' =>
          if String.eqb f "blen" then
            match args' with
            | EField n _ :: _ => if mem n known then Some (EField (blen_name n) ty_u64) else None
            | _ => None
            end
          else Some (ECall f args')
      | None => None
      end
  | e => Some e
  end.

(** A field waiting for the length of a later container: container.rs:110-111
    [auto_targets] holds its buffer and the field; the third component is the
    encode_field call that will be made for it. *)
Definition auto := (nat * fattr * (target -> nat -> egen unit))%type.

Section EncGen.
  Variable p : program.
  Variable rfuel : nat.

  (** array.rs:4-109 encode_array. *)
  Definition enc_array (rec : nat -> egen unit) (el : ty) (l : lenc) (tgt : target) (src : nat) : egen unit :=
    do term <- match l with LTerm e => do r <- eeval e; gret (Some r) | _ => gret None end;   (* 5-13 *)
    do len <- match l with LFixed e => do r <- eeval e; gret (Some r) | _ => gret None end;   (* 32-40 *)
    match (match term with None => kind_of (resolved p rfuel el) | Some _ => KLoop end) with
    | KPrim pr => tell (NPrimArr tgt src pr len)
    | KRepr d => tell (NReprArr tgt src d len)
    | KLoop =>                                                     (* 80-108 *)
        do (body, idx) <- block (
          do idx <- efresh;
          do item <- efresh;
          do _ <- tell (NGetField item src [FIdx idx]);
          do _ <- rec item;
          gret idx);
        do len <- match len with
                  | Some r => gret r
                  | None => do r <- efresh; do _ <- tell (NGetLen r src); gret r
                  end;
        do _ <- tell (NLoop idx len body);
        match term with
        | Some t => tell (NPrimArr tgt t (PScalar u8be) None)
        | None => gret tt
        end
    end.

  (** mod.rs:68-121 encode_type, var_ref.rs:4-28 encode_var_ref. *)
  Fixpoint enc_type (t : ty) (tgt : target) (src : nat) {struct t} : egen unit :=
    match t with
    | TCont _ _ _ => gfail
    | TArr el l => enc_array (enc_type el tgt) el l tgt src
    | TEnum d => tell (NRepr tgt src (RpEnum d))
    | TBits d => tell (NRepr tgt src (RpBits d))
    | TScalar e => tell (NPrim tgt src (PScalar e))
    | TF32 => tell (NPrim tgt src PF32)
    | TF64 => tell (NPrim tgt src PF64)
    | TBool => tell (NPrim tgt src PBool)
    | TForeign n => tell (NForeign tgt src n [])
    | TRef n args =>
        do rs <- eevals args;
        match p n with
        | Some {| d_ty := TForeign f |} => tell (NForeign tgt src f rs)
        | _ => tell (NRef tgt src n rs)
        end
    end.

  (** field.rs:67-112: the transforms, first one first; returns the innermost stream
      and the (stream, owned) registers in order. *)
  Fixpoint enc_xs (xs : list xuse) (tgt : target) : egen (target * list (nat * option nat)) :=
    match xs with
    | [] => gret (tgt, [])
    | x :: xs =>
        do cond <- match x_cond x with
                   | Some e => do r <- eeval e; gret (Some r)
                   | None => gret None
                   end;
        match cond with
        | Some c =>
            do (prelude, args) <- block (eevals (x_args x));
            do s <- efresh;
            do o <- efresh;
            do _ <- tell (NCondWrap c prelude tgt s o (x_name x) args);
            do (inner, l) <- enc_xs xs (TStream s);
            gret (inner, (s, Some o) :: l)
        | None =>
            do args <- eevals (x_args x);
            do s <- efresh;
            do _ <- tell (NWrap tgt s (x_name x) args);
            do (inner, l) <- enc_xs xs (TStream s);
            gret (inner, (s, None) :: l)
        end
    end.
  (** field.rs:150-155. *)
  Fixpoint enc_ends (l : list (nat * option nat)) : egen unit :=
    match l with
    | [] => gret tt
    | (s, o) :: l =>
        do _ <- tell (NEndStream s);
        do _ <- match o with Some o => tell (NDrop o) | None => gret tt end;
        enc_ends l
    end.

  (** field.rs:58-156 encode_field_unconditional; [k] is encode_complex_type;
      [pseudo]: a nested container. *)
  Definition enc_uncond (k : target -> nat -> bool -> egen unit) (a : fattr) (t : ty) (pseudo : bool)
      (tgt : target) (src : nat) (self_cond total_cond : bool) : egen unit :=
    do (inner, streams) <- enc_xs (fa_xs a) tgt;
    do src <- (if self_cond && negb pseudo && (match fa_calc a with Some _ => false | None => true end) && negb (fa_pad a)
               then do r <- efresh; do _ <- tell (NNullCheck src r); gret r
               else gret src);
    do _ <- (if fa_pad a then
               match t with
               | TArr _ (LFixed e) => do r <- eeval e; tell (NPad inner r)
               | _ => gfail
               end
             else k inner src total_cond);
    enc_ends (rev streams).

  (** field.rs:23-32 encode_field_condition. *)
  Definition enc_cond (a : fattr) : egen (option nat) :=
    match fa_cond a with
    | Some e => do r <- eeval e; gret (Some r)
    | None => gret None
    end.

  (** field.rs:34-56 encode_field. *)
  Definition enc_field (k : target -> nat -> bool -> egen unit) (a : fattr) (t : ty) (pseudo : bool)
      (tgt : target) (src : nat) (conditional : bool) : egen unit :=
    do c <- enc_cond a;
    match c with
    | None => enc_uncond k a t pseudo tgt src false conditional
    | Some c =>
        do (body, _) <- block (enc_uncond k a t pseudo tgt src true true);
        tell (NCond c body)
    end.

  (** container.rs:11-27 encode_container_refs. *)
  Fixpoint enc_refs (l : list (fattr * ty)) (src : nat) : egen unit :=
    match l with
    | [] => gret tt
    | (a, t) :: l =>
        if (match fa_calc a with Some _ => true | None => false end) || fa_pad a then enc_refs l src
        else
          do r <- efresh;
          do _ <- tell (NGetField r src [FName (fa_name a)]);
          do _ <- tell (NSetRef (fa_name a) r);
          enc_refs l src
    end.
  (** container.rs:29-57 nullcheck_container_refs (when conditional). *)
  Fixpoint enc_nullchecks (l : list (fattr * ty)) : egen unit :=
    match l with
    | [] => gret tt
    | (a, t) :: l =>
        if (match fa_calc a with Some _ => true | None => false end) || fa_pad a || is_cont t
           || (match fa_cond a with Some _ => true | None => false end)
        then enc_nullchecks l
        else
          do r <- efresh;
          do _ <- tell (NGetRef r (fa_name a));
          do _ <- tell (NNullCheck r r);
          do _ <- tell (NSetRef (fa_name a) r);
          enc_nullchecks l
    end.
  (** container.rs:59-73 encode_container_calculated. *)
  Fixpoint enc_calcs (l : list (fattr * ty)) : egen unit :=
    match l with
    | [] => gret tt
    | (a, t) :: l =>
        match fa_calc a with
        | Some e =>
            match blen_calls e with
            | None => gfail
            | Some [] =>
                do r <- eeval e;
                do _ <- tell (NSetRef (fa_name a) r);
                enc_calcs l
            | Some _ => enc_calcs l
            end
        | None => enc_calcs l
        end
    end.

  (** container.rs:75-99 eval_blen_expr. *)
  Fixpoint set_blens (l : list string) : egen unit :=
    match l with
    | [] => gret tt
    | n :: l =>
        do o <- eresolved n;
        match o with
        | Some r => do _ <- tell (NSetRef (blen_name n) r); set_blens l
        | None => gfail
        end
    end.
  Definition eval_blen (blens : list string) (name : string) (e : expr) : egen nat :=
    do _ <- set_blens blens;
    match rewrite_blen blens e with
    | Some e' =>
        do r <- eeval e';
        do _ <- tell (NSetRef name r);
        gret r
    | None => gfail
    end.

  Fixpoint all_resolved (l : list string) : egen bool :=
    match l with
    | [] => gret true
    | n :: l =>
        do o <- eresolved n;
        do b <- all_resolved l;
        gret (match o with Some _ => b | None => false end)
    end.
  Fixpoint pend_all (l : list string) : egen unit :=      (* 117-122 *)
    match l with
    | [] => gret tt
    | n :: l =>
        do o <- eresolved n;
        do _ <- match o with Some _ => gret tt | None => epend n end;
        pend_all l
    end.
  Fixpoint remove_nth {A} (i : nat) (l : list A) : list A :=
    match l, i with
    | [], _ => []
    | _ :: l, O => l
    | x :: l, S i => x :: remove_nth i l
    end.
  (** container.rs:147-167: the pending fields whose containers are now known, last
      first; [i] is the index of the entry looked at plus one. *)
  Fixpoint flush_autos (i : nat) (autos : list auto) (base : target) : egen (list auto) :=
    match i with
    | O => gret autos
    | S i =>
        match nth_error autos i with
        | None => gret autos
        | Some (buf, a, enc) =>
            match fa_calc a with
            | None => gfail
            | Some e =>
                match blen_calls e with
                | None => gfail
                | Some blens =>
                    do ok <- all_resolved blens;
                    if ok then
                      do r <- eval_blen blens (fa_name a) e;
                      let autos := remove_nth i autos in
                      let tgt := match nth_error autos i with Some (b, _, _) => TBuf b | None => base end in
                      do _ <- enc tgt r;
                      do _ <- tell (NEmitBuf tgt buf);
                      flush_autos i autos base
                    else flush_autos i autos base
                end
            end
        end
    end.
  Definition auto_target (autos : list auto) (base : target) : target :=
    match rev autos with (b, _, _) :: _ => TBuf b | [] => base end.

  (** An item of a container with its encode_complex_type. *)
  Definition eitem := (fattr * ty * (target -> nat -> bool -> egen unit))%type.

  (** container.rs:101-171 encode_container_items. *)
  Fixpoint enc_items (its : list eitem) (buf : target) (src : nat) (cond : bool) (autos : list auto) : egen unit :=
    match its with
    | [] => match autos with [] => gret tt | _ => gfail end               (* 166-168 panic! *)
    | (a', t', k) :: its =>
        let field := fun tg sr => enc_field k a' t' (is_cont t') tg sr cond in
        let plain :=
          let real := auto_target autos buf in
          do _ <- (if is_cont t' || fa_pad a' then field real src
                   else do r <- efresh; do _ <- tell (NGetRef r (fa_name a')); field real r);
          do autos <- flush_autos (List.length autos) autos buf;
          enc_items its buf src cond autos in
        match fa_calc a' with
        | Some e =>
            match blen_calls e with
            | None => gfail
            | Some [] => plain
            | Some blens =>
                do ok <- all_resolved blens;
                do _ <- pend_all blens;
                if ok then do _ <- eval_blen blens (fa_name a') e; plain
                else
                  do b <- efresh;
                  do _ <- tell (NAllocDyn b);
                  enc_items its buf src cond (autos ++ [(b, a', field)])
            end
        | None => plain
        end
    end.

  (** container.rs:205-219: a register for each leaf of a struct variant. *)
  Fixpoint enc_names (l : list (fattr * ty)) : egen (list (string * nat)) :=
    match l with
    | [] => gret []
    | (a, t) :: l =>
        if fa_pad a || is_cont t then enc_names l
        else do r <- efresh; do rs <- enc_names l; gret ((fa_name a, r) :: rs)
    end.
  Fixpoint enc_setrefs (l : list (string * nat)) : egen unit :=
    match l with
    | [] => gret tt
    | (n, r) :: l => do _ <- tell (NSetRef n r); enc_setrefs l
    end.
  (** container.rs:200-253: one variant of a tagged enum.  The variant's own container
      length and transforms are not used when it is a container (235-240). *)
  Definition evitem := (fattr * ty * (target -> nat -> bool -> egen unit) * list eitem)%type.
  Definition enc_variant (name : string) (v : evitem) (buf : target) (src : nat) : egen unit :=
    let '(a', t', k, subs) := v in
    do unwrapped <- efresh;
    if is_cont t' then
      do rs <- enc_names (flatten_ty t');
      do _ <- tell (NUnwrapEnumS name (fa_name a') src rs);
      do _ <- enc_setrefs rs;
      do _ <- enc_calcs (flatten_ty t');
      do _ <- enc_items subs buf src false [];
      tell NBreak
    else
      do _ <- tell (NUnwrapEnum name (fa_name a') src unwrapped);
      do _ <- enc_uncond k a' t' false buf unwrapped false false;
      tell NBreak.
  Fixpoint enc_variants (name : string) (its : list evitem) (buf : target) (src : nat) : egen unit :=
    match its with
    | [] => gret tt
    | v :: its =>
        do c <- enc_cond (fst (fst (fst v)));
        do _ <- match c with
                | Some c => do (body, _) <- block (enc_variant name v buf src); tell (NCond c body)
                | None => enc_variant name v buf src
                end;
        enc_variants name its buf src
    end.

  (** mod.rs:52-66 encode_complex_type, container.rs:171-279 encode_container. *)
  Fixpoint enc_complex (top : bool) (a : fattr) (t : ty) (tgt : target) (src : nat) (conditional : bool)
      {struct t} : egen unit :=
    match t with
    | TCont len tagged items =>
        do buf <- match len with                                         (* 179-195 *)
                  | Some e =>
                      do b <- efresh;
                      do pend <- epending (fa_name a);
                      do _ <- (if pend then tell (NAllocDyn b)
                               else do l <- eeval e; tell (NAllocBuf b l));
                      gret (Some b)
                  | None => gret None
                  end;
        let btgt := match buf with Some b => TBuf b | None => tgt end in
        do _ <- (if tagged then
                   let vs := map (fun f => (fst f, snd f, enc_complex false (fst f) (snd f),
                                            match snd f with
                                            | TCont _ _ sub => map (fun g => (fst g, snd g, enc_complex false (fst g) (snd g))) sub
                                            | _ => []
                                            end)) items in
                   do (body, _) <- block (enc_variants (fa_name a) vs btgt src);
                   tell (NBreakBlock body)
                 else
                   let its := map (fun f => (fst f, snd f, enc_complex false (fst f) (snd f))) items in
                   do _ <- (if top then do _ <- enc_refs (flatten_items items) src; enc_calcs (flatten_items items)
                            else if conditional then enc_nullchecks items else gret tt);
                   enc_items its btgt src conditional []);
        match buf with                                                   (* 267-279 *)
        | Some b =>
            do pend <- epending (fa_name a);
            do _ <- (if pend then
                       do _ <- eunpend (fa_name a);
                       do r <- efresh;
                       do _ <- tell (NGetLen r b);
                       ers_insert (fa_name a) r
                     else gret tt);
            tell (NEmitBuf tgt b)
        | None => gret tt
        end
    | _ => enc_type t tgt src
    end.

  (** field.rs:4-21 encode_field_top. *)
  Definition enc_top (d : decl) : egen unit :=
    do top <- efresh;
    match d_ty d with
    | TForeign _ => gret tt
    | t =>
        do _ <- match t with
                | TCont _ _ _ | TEnum _ | TBits _ => gret tt
                | _ => tell (NGetField 0 0 [FTup])
                end;
        enc_field (enc_complex true (d_attr d) t) (d_attr d) t false TDirect top false
    end.
  Definition enc_code (d : decl) : option (list einstr) :=
    match enc_top d {| ec_rc := 0; ec_resolved := []; ec_pending := [] |} with
    | Some (is, _, _) => Some is
    | None => None
    end.
End EncGen.

(** *** Execution *)

(** A writer variable: a [Vec<u8>] (also the caller's writer), a transform writing to
    another writer, another writer itself, or one that was dropped or never made. *)
Inductive sink :=
| KBuf (b : list Z) | KXf (parent : option nat) (x : string) (args : list val) (acc : list Z)
| KAlias (parent : option nat) | KGone.
Definition sinks := list (option nat * sink).   (* newest first *)
Fixpoint wr (k : option nat) (b : list Z) (l : sinks) : option sinks :=
  match l with
  | [] => None
  | (k', s) :: l =>
      if key_eqb k k' then
        match s with
        | KBuf a => Some ((k', KBuf (a ++ b)) :: l)
        | KXf p x args a => Some ((k', KXf p x args (a ++ b)) :: l)
        | KAlias p => match wr p b l with Some l' => Some ((k', s) :: l') | None => None end
        | KGone => None
        end
      else match wr k b l with Some l' => Some ((k', s) :: l') | None => None end
  end.
Fixpoint sink_of (k : option nat) (l : sinks) : option sink :=
  match l with
  | [] => None
  | (k', s) :: l => if key_eqb k k' then Some s else sink_of k l
  end.

Record est := { es_regs : regs; es_snk : sinks }.
Inductive eout := ENext (st : est) | EBrk (st : est).
Definition elet (r : nat) (v : val) (st : est) : est := {| es_regs := (r, v) :: es_regs st; es_snk := es_snk st |}.
Definition ereg (r : nat) (st : est) : res ioerr val := of_some (assoc r (es_regs st)).
Definition epush (k : option nat) (s : sink) (st : est) : est := {| es_regs := es_regs st; es_snk := (k, s) :: es_snk st |}.
Definition ewrite (t : option nat) (b : list Z) (st : est) : res ioerr est :=
  let! l := of_some (wr t b (es_snk st)) in Ok {| es_regs := es_regs st; es_snk := l |}.
Definition eleave (st0 st : est) : est :=
  {| es_regs := truncate (List.length (es_regs st0)) (es_regs st);
     es_snk := truncate (List.length (es_snk st0)) (es_snk st) |}.

(** compiler/encoder.rs:444-452 SetRef is resolved when the code is emitted: the map
    of references after an instruction does not depend on the path taken at run time. *)
Definition rmap := list (string * nat).
Fixpoint escan (i : einstr) (m : rmap) : rmap :=
  let seq := fix seq (l : list einstr) (m : rmap) : rmap := match l with [] => m | i :: l => seq l (escan i m) end in
  match i with
  | NSetRef n r => (n, r) :: m
  | NCondWrap _ l _ _ _ _ _ => seq l m
  | NLoop _ _ l => seq l m
  | NCond _ l => seq l m
  | NBreakBlock l => seq l m
  | _ => m
  end.
Fixpoint escans (l : list einstr) (m : rmap) : rmap := match l with [] => m | i :: l => escans l (escan i m) end.

Fixpoint for_range (n : nat) (i : Z) (body : Z -> est -> res ioerr eout) (st : est) : res ioerr eout :=
  match n with
  | O => Ok (ENext st)
  | S n =>
      let! o := body i st in
      match o with ENext st => for_range n (i + 1) body st | EBrk st => Ok (EBrk st) end
  end.
Fixpoint get_ops (st : est) (ops : list fref) (v : val) : res ioerr val :=
  match ops with
  | [] => Ok v
  | FName n :: ops =>
      match v with
      | VStruct _ fs => let! x := of_some (lookup n fs) in get_ops st ops x
      | _ => Panic
      end
  | FTup :: ops => match v with VTup x => get_ops st ops x | _ => Panic end
  | FIdx r :: ops =>
      let! i := ereg r st in
      match i, v with
      | VInt _ z, VArr l => let! x := of_some (nth_error l (Z.to_nat z)) in get_ops st ops x
      | _, _ => Panic
      end
  end.
(** The length check of encoder.rs:291-306. *)
Definition check_len (len : option nat) (n : nat) (st : est) : res ioerr unit :=
  match len with
  | None => Ok tt
  | Some r => let! v := ereg r st in
              match v with
              | VInt _ z => if (z mod 2 ^ 64 =? Z.of_nat n) then Ok tt else Panic
              | _ => Panic
              end
  end.
(** Dropping a transform's writer finishes its output. *)
Fixpoint finish (w : world) (k : option nat) (l : sinks) : res ioerr sinks :=
  match l with
  | [] => Panic
  | (k', s) :: l =>
      if key_eqb k k' then
        match s with
        | KXf p x args a =>
            let! b := w_xenc w x args a in
            let! l' := of_some (wr p b l) in
            Ok ((k', KGone) :: l')
        | KAlias _ => Ok ((k', KGone) :: l)
        | KBuf _ => Ok ((k', KGone) :: l)
        | KGone => Ok ((k', KGone) :: l)
        end
      else let! l' := finish w k l in Ok ((k', s) :: l')
  end.

Section EncRun.
  Variable w : world.
  Variable inputs : string -> option val.
  (** [source.encode_sync(..)] of a value of the named declaration. *)
  Variable rec : string -> list val -> val -> res ioerr (list Z).

  (** compiler/encoder.rs:38-456, one match arm per instruction. *)
  Fixpoint erun (m : rmap) (i : einstr) (st : est) {struct i} : res ioerr eout :=
    let seq := fix seq (m : rmap) (l : list einstr) (st : est) {struct l} : res ioerr eout :=
      match l with
      | [] => Ok (ENext st)
      | i :: l => let! o := erun m i st in
                  match o with ENext st => seq (escan i m) l st | EBrk st => Ok (EBrk st) end
      end in
    match i with
    | NEval r e =>                                                 (* 41-52 *)
        let! v := eval w inputs (fun n => match lookup n m with Some r => assoc r (es_regs st) | None => None end) e in
        Ok (ENext (elet r v st))
    | NGetField r src ops =>                                       (* 53-77 *)
        let! v := ereg src st in
        let! x := get_ops st ops v in
        Ok (ENext (elet r x st))
    | NGetRef r n =>                                               (* 447-454 *)
        let! q := of_some (lookup n m) in
        let! v := ereg q st in
        Ok (ENext (elet r v st))
    | NSetRef _ _ => Ok (ENext st)
    | NAllocBuf b len =>                                           (* 78-85 *)
        let! v := ereg len st in
        let! _ := len_of v in
        Ok (ENext (epush (Some b) (KBuf []) st))
    | NAllocDyn b => Ok (ENext (epush (Some b) (KBuf []) st))      (* 86-91 *)
    | NWrap s r x args =>                                          (* 150-158 *)
        let! vs := mapM (fun a => ereg a st) args in
        Ok (ENext (epush (Some r) (KXf (key s) x vs []) st))
    | NCondWrap c prelude s r o x args =>                          (* 316-356 *)
        let! cv := ereg c st in
        let! b := bool_of cv in
        if b then
          let! out := seq m prelude st in
          match out with
          | EBrk st => Ok (EBrk st)
          | ENext st' =>
              let! vs := mapM (fun a => ereg a st') args in
              Ok (ENext (epush (Some r) (KAlias (Some o)) (epush (Some o) (KXf (key s) x vs []) (eleave st st'))))
          end
        else Ok (ENext (epush (Some r) (KAlias (key s)) (epush (Some o) KGone st)))
    | NEndStream r | NDrop r =>                                    (* 143-148, 171-177 *)
        let! l := finish w (Some r) (es_snk st) in
        Ok (ENext {| es_regs := es_regs st; es_snk := l |})
    | NEmitBuf t b =>                                              (* 178-184 *)
        match sink_of (Some b) (es_snk st) with
        | Some (KBuf bytes) => let! st := ewrite (key t) bytes st in Ok (ENext st)
        | _ => Panic
        end
    | NForeign t src n args =>                                     (* 159-170 *)
        let! vs := mapM (fun a => ereg a st) args in
        let! v := ereg src st in
        let! b := w_fenc w n vs v in
        let! st := ewrite (key t) b st in Ok (ENext st)
    | NRef t src n args =>                                         (* 185-204 *)
        let! vs := mapM (fun a => ereg a st) args in
        let! v := ereg src st in
        let! b := rec n vs v in
        let! st := ewrite (key t) b st in Ok (ENext st)
    | NRepr t src d =>                                             (* 205-228 *)
        let! v := ereg src st in
        let! b := repr_enc d v in
        let! st := ewrite (key t) b st in Ok (ENext st)
    | NPrim t src pr =>                                            (* 229-256 *)
        let! v := ereg src st in
        let! b := prim_enc pr v in
        let! st := ewrite (key t) b st in Ok (ENext st)
    | NPrimArr t src PBool len => Panic                            (* [if x] on a [&bool] *)
    | NPrimArr t src pr len =>                                     (* 257-315 *)
        let! v := ereg src st in
        match v with
        | VArr vs =>
            let! _ := check_len len (List.length vs) st in
            let! bs := mapM (prim_enc pr) vs in
            let! st := ewrite (key t) (concat bs) st in Ok (ENext st)
        | _ => Panic
        end
    | NReprArr t src d len =>
        let! v := ereg src st in
        match v with
        | VArr vs =>
            let! _ := check_len len (List.length vs) st in
            let! bs := mapM (repr_enc d) vs in
            let! st := ewrite (key t) (concat bs) st in Ok (ENext st)
        | _ => Panic
        end
    | NPad t len =>                                                (* 436-443 *)
        let! v := ereg len st in
        let! n := len_of v in
        let! st := ewrite (key t) (repeat 0 n) st in Ok (ENext st)
    | NLoop idx stop body =>                                       (* 92-102 *)
        let! v := ereg stop st in
        match v with
        | VInt s z =>
            for_range (Z.to_nat z) 0
              (fun i st => let! o := seq m body (elet idx (VInt s i) st) in
                           match o with ENext st' => Ok (ENext (eleave st st')) | EBrk st' => Ok (EBrk st') end) st
        | _ => Panic
        end
    | NGetLen r src =>                                             (* 103-117 *)
        match assoc src (es_regs st), sink_of (Some src) (es_snk st) with
        | Some (VArr l), _ => Ok (ENext (elet r (VInt U64 (Z.of_nat (List.length l))) st))
        | None, Some (KBuf b) => Ok (ENext (elet r (VInt U64 (Z.of_nat (List.length b))) st))
        | _, _ => Panic
        end
    | NNullCheck src r =>                                          (* 118-134 *)
        let! v := ereg src st in
        match v with
        | VOpt (Some x) => Ok (ENext (elet r x st))
        | VOpt None => Err EEncode
        | _ => Panic
        end
    | NCond c body =>                                              (* 135-142 *)
        let! cv := ereg c st in
        let! b := bool_of cv in
        if b then
          let! o := seq m body st in
          match o with ENext st' => Ok (ENext (eleave st st')) | EBrk st' => Ok (EBrk st') end
        else Ok (ENext st)
    | NUnwrapEnum n d src r =>                                     (* 357-372 *)
        let! v := ereg src st in
        match v with
        | VVariant n' d' x =>
            if String.eqb n n' then if String.eqb d d' then Ok (ENext (elet r x st)) else Err EEncode else Panic
        | VVariantS n' d' _ =>
            if String.eqb n n' then if String.eqb d d' then Panic else Err EEncode else Panic
        | _ => Panic
        end
    | NUnwrapEnumS n d src rs =>                                   (* 373-409 *)
        let! v := ereg src st in
        match v with
        | VVariantS n' d' fs =>
            if String.eqb n n' then
              if String.eqb d d' then
                let! vs := mapM (fun nr => let! x := of_some (lookup (fst nr) fs) in Ok (snd nr, x)) rs in
                Ok (ENext {| es_regs := rev vs ++ es_regs st; es_snk := es_snk st |})
              else Err EEncode
            else Panic
        | VVariant n' d' _ =>
            if String.eqb n n' then if String.eqb d d' then Panic else Err EEncode else Panic
        | _ => Panic
        end
    | NBreakBlock body =>                                          (* 410-419 *)
        let! o := seq m body st in
        match o with ENext st' | EBrk st' => Ok (ENext (eleave st st')) end
    | NBreak => Ok (EBrk st)                                       (* 420-424 *)
    end.
  Fixpoint eseq (m : rmap) (l : list einstr) (st : est) {struct l} : res ioerr eout :=
    match l with
    | [] => Ok (ENext st)
    | i :: l => let! o := erun m i st in
                match o with ENext st => eseq (escan i m) l st | EBrk st => Ok (EBrk st) end
    end.

  (** compiler/encoder.rs:458-470: [let r_0 = self; ...; Ok(())]. *)
  Definition erun_top (code : list einstr) (v : val) : res ioerr (list Z) :=
    let! o := eseq [] code {| es_regs := [(0%nat, v)]; es_snk := [(None, KBuf [])] |} in
    match o with
    | ENext st => match sink_of None (es_snk st) with Some (KBuf b) => Ok b | _ => Panic end
    | EBrk _ => Panic
    end.
End EncRun.

(** [value.encode_sync(writer, args)] for a value of the declaration [n]. *)
Fixpoint encode (w : world) (p : program) (rf : nat) (fuel : nat) (n : string) (args : list val) (v : val)
  : res ioerr (list Z) :=
  match fuel with
  | O => Hang
  | S fuel =>
      let! d := of_some (p n) in
      let! code := of_some (enc_code p rf d) in
      let! inp := bind_params w (d_params d) args [] in
      erun_top w (fun x => lookup x inp) (encode w p rf fuel) code v
  end.
