(** The generated encoder writing to a device that fails (C57): compiler/encoder.rs:38-470 again, with the caller's writer of limited room.

    Encode.v gives the bytes a successful encoding writes; here the caller's writer takes [room] bytes ([None]: any number) and then fails for good, and what it
    got is kept also when the encoder fails.  Every write of the generated code is a [write_all(..)?] (encoder.rs:181-427, prelude/*.rs): it delivers what there
    is room for and returns the error.  The end of a transform is [stream.flush()?; drop(stream)] (encoder.rs:178-184): what the transform's writer only hands on
    when it is dropped - the last [late] bytes of its output - is written by its Drop implementation, which cannot report an error.
    Simplifications: a transform hands on everything when it is flushed or dropped (never earlier); a conditional transform's flush, made through the
    reference to it, is taken together with its drop; vectors and transforms' inner buffers never fail. *)
From Verif Require Import Base Scalar EnumBits Expr Asg Gen Decode Encode.
Open Scope string_scope. Open Scope Z_scope. Open Scope list_scope.

(** The caller's writer. *)
Record dev := { got : list Z; room : option nat }.
(** How a run ends: in the encoder's own way, or with the device's error. *)
Inductive fout (A : Type) := Fin (r : res ioerr A) | Full.
Arguments Fin {A} r. Arguments Full {A}.
Definition D (A : Type) := dev -> fout A * dev.
Definition lift {A} (r : res ioerr A) : D A := fun d => (Fin r, d).
Definition dbind {A B} (m : D A) (k : A -> D B) : D B := fun d =>
  match m d with
  | (Fin (Ok a), d) => k a d
  | (Fin (Err e), d) => (Fin (Err e), d)
  | (Fin Panic, d) => (Fin Panic, d)
  | (Fin Hang, d) => (Fin Hang, d)
  | (Full, d) => (Full, d)
  end.
Notation "'let@' x ':=' r 'in' k" := (dbind r (fun x => k)) (at level 200, x name, r at level 100, k at level 200, right associativity).
(** write_all. *)
Definition dwrite (b : list Z) : D unit := fun d =>
  match room d with
  | None => (Fin (Ok tt), {| got := got d ++ b; room := None |})
  | Some n => if (List.length b <=? n)%nat then (Fin (Ok tt), {| got := got d ++ b; room := Some (n - List.length b)%nat |})
              else (Full, {| got := got d ++ firstn n b; room := Some 0%nat |})
  end.
(** write_all in a Drop implementation: the error is lost. *)
Definition dwrite_quiet (b : list Z) : D unit := fun d => (Fin (Ok tt), snd (dwrite b d)).

(** Writing to a writer variable: the new variables, and what reaches the caller's writer (the variable [None]). *)
Fixpoint wrd (k : option nat) (b : list Z) (l : sinks) : option (sinks * list Z) :=
  match l with
  | [] => None
  | (k', s) :: l =>
      if key_eqb k k' then
        match s with
        | KBuf a => match k' with None => Some ((k', KBuf a) :: l, b) | Some _ => Some ((k', KBuf (a ++ b)) :: l, []) end
        | KXf p x args a => Some ((k', KXf p x args (a ++ b)) :: l, [])
        | KAlias p => match wrd p b l with Some (l', o) => Some ((k', s) :: l', o) | None => None end
        | KGone => None
        end
      else match wrd k b l with Some (l', o) => Some ((k', s) :: l', o) | None => None end
  end.
Definition put (t : option nat) (b : list Z) (st : est) : D est :=
  let@ r := lift (of_some (wrd t b (es_snk st))) in
  let@ _ := dwrite (snd r) in
  lift (Ok {| es_regs := es_regs st; es_snk := fst r |}).
(** Whether a writer variable is the caller's writer, perhaps by another name. *)
Fixpoint direct (k : option nat) (l : sinks) : bool :=
  match l with
  | [] => false
  | (k', s) :: l => if key_eqb k k' then match s with KBuf _ => match k' with None => true | Some _ => false end | KAlias p => direct p l | _ => false end else direct k l
  end.

Section Run.
  Variable w : world.
  (** How many of the last bytes of a transform's output are only written when it is dropped. *)
  Variable late : string -> list val -> list Z -> nat.
  Variable inputs : string -> option val.
  Variable rec : string -> list val -> val -> D unit.

  (** EndStream, Drop (encoder.rs:143-148, 178-184). *)
  Fixpoint ffinish (k : option nat) (l : sinks) : D sinks :=
    match l with
    | [] => lift Panic
    | (k', s) :: l =>
        if key_eqb k k' then
          match s with
          | KXf p x args a =>
              let@ b := lift (w_xenc w x args a) in
              let n := (List.length b - late x args a)%nat in
              let@ r1 := lift (of_some (wrd p (firstn n b) l)) in
              let@ _ := dwrite (snd r1) in                          (* flush()? *)
              let@ r2 := lift (of_some (wrd p (skipn n b) (fst r1))) in
              let@ _ := dwrite_quiet (snd r2) in                    (* drop *)
              lift (Ok ((k', KGone) :: fst r2))
          | _ => lift (Ok ((k', KGone) :: l))
          end
        else let@ l' := ffinish k l in lift (Ok ((k', s) :: l'))
    end.
  Fixpoint ffor (n : nat) (i : Z) (body : Z -> est -> D eout) (st : est) : D eout :=
    match n with
    | O => lift (Ok (ENext st))
    | S n => let@ o := body i st in match o with ENext st => ffor n (i + 1) body st | EBrk st => lift (Ok (EBrk st)) end
    end.

  (** Encode.v [erun], instruction by instruction. *)
  Fixpoint frun (m : rmap) (i : einstr) (st : est) {struct i} : D eout :=
    let seq := fix seq (m : rmap) (l : list einstr) (st : est) {struct l} : D eout :=
      match l with
      | [] => lift (Ok (ENext st))
      | i :: l => let@ o := frun m i st in match o with ENext st => seq (escan i m) l st | EBrk st => lift (Ok (EBrk st)) end
      end in
    match i with
    | NEndStream r | NDrop r =>
        let@ l := ffinish (Some r) (es_snk st) in
        lift (Ok (ENext {| es_regs := es_regs st; es_snk := l |}))
    | NEmitBuf t b =>
        match sink_of (Some b) (es_snk st) with
        | Some (KBuf bytes) => let@ st := put (key t) bytes st in lift (Ok (ENext st))
        | _ => lift Panic
        end
    | NForeign t src n args =>
        let@ vs := lift (mapM (fun a => ereg a st) args) in
        let@ v := lift (ereg src st) in
        let@ b := lift (w_fenc w n vs v) in
        let@ st := put (key t) b st in lift (Ok (ENext st))
    | NRef t src n args =>
        (* the inner encoder writes straight to the same writer *)
        let@ vs := lift (mapM (fun a => ereg a st) args) in
        let@ v := lift (ereg src st) in
        if direct (key t) (es_snk st) then let@ _ := rec n vs v in lift (Ok (ENext st))
        else match rec n vs v {| got := []; room := None |} with
             | (Fin (Ok _), d) => let@ st := put (key t) (got d) st in lift (Ok (ENext st))
             | (Fin (Err e), _) => lift (Err e)
             | (Fin Panic, _) => lift Panic
             | (Fin Hang, _) => lift Hang
             | (Full, _) => lift Panic
             end
    | NRepr t src d =>
        let@ v := lift (ereg src st) in
        let@ b := lift (repr_enc d v) in
        let@ st := put (key t) b st in lift (Ok (ENext st))
    | NPrim t src pr =>
        let@ v := lift (ereg src st) in
        let@ b := lift (prim_enc pr v) in
        let@ st := put (key t) b st in lift (Ok (ENext st))
    | NPrimArr t src PBool len => lift Panic
    | NPrimArr t src pr len =>
        let@ v := lift (ereg src st) in
        match v with
        | VArr vs =>
            let@ _ := lift (check_len len (List.length vs) st) in
            let@ bs := lift (mapM (prim_enc pr) vs) in
            let@ st := put (key t) (concat bs) st in lift (Ok (ENext st))
        | _ => lift Panic
        end
    | NReprArr t src d len =>
        let@ v := lift (ereg src st) in
        match v with
        | VArr vs =>
            let@ _ := lift (check_len len (List.length vs) st) in
            let@ bs := lift (mapM (repr_enc d) vs) in
            let@ st := put (key t) (concat bs) st in lift (Ok (ENext st))
        | _ => lift Panic
        end
    | NPad t len =>
        let@ v := lift (ereg len st) in
        let@ n := lift (len_of v) in
        let@ st := put (key t) (repeat 0 n) st in lift (Ok (ENext st))
    | NCondWrap c prelude s r o x args =>
        let@ cv := lift (ereg c st) in
        let@ b := lift (bool_of cv) in
        if b then
          let@ out := seq m prelude st in
          match out with
          | EBrk st => lift (Ok (EBrk st))
          | ENext st' =>
              let@ vs := lift (mapM (fun a => ereg a st') args) in
              lift (Ok (ENext (epush (Some r) (KAlias (Some o)) (epush (Some o) (KXf (key s) x vs []) (eleave st st')))))
          end
        else lift (Ok (ENext (epush (Some r) (KAlias (key s)) (epush (Some o) KGone st))))
    | NLoop idx stop body =>
        let@ v := lift (ereg stop st) in
        match v with
        | VInt s z =>
            ffor (Z.to_nat z) 0
              (fun i st => let@ o := seq m body (elet idx (VInt s i) st) in
                           match o with ENext st' => lift (Ok (ENext (eleave st st'))) | EBrk st' => lift (Ok (EBrk st')) end) st
        | _ => lift Panic
        end
    | NCond c body =>
        let@ cv := lift (ereg c st) in
        let@ b := lift (bool_of cv) in
        if b then
          let@ o := seq m body st in
          match o with ENext st' => lift (Ok (ENext (eleave st st'))) | EBrk st' => lift (Ok (EBrk st')) end
        else lift (Ok (ENext st))
    | NBreakBlock body =>
        let@ o := seq m body st in
        match o with ENext st' | EBrk st' => lift (Ok (ENext (eleave st st'))) end
    (* nothing is written *)
    | NEval _ _ | NGetField _ _ _ | NGetRef _ _ | NSetRef _ _ | NAllocBuf _ _ | NAllocDyn _ | NWrap _ _ _ _ | NGetLen _ _ | NNullCheck _ _ | NUnwrapEnum _ _ _ _ | NUnwrapEnumS _ _ _ _ | NBreak =>
        lift (erun w inputs (fun _ _ _ => Panic) m i st)
    end.
  Fixpoint fseq (m : rmap) (l : list einstr) (st : est) {struct l} : D eout :=
    match l with
    | [] => lift (Ok (ENext st))
    | i :: l => let@ o := frun m i st in match o with ENext st => fseq (escan i m) l st | EBrk st => lift (Ok (EBrk st)) end
    end.
  Definition frun_top (code : list einstr) (v : val) : D unit :=
    let@ o := fseq [] code {| es_regs := [(0%nat, v)]; es_snk := [(None, KBuf [])] |} in
    match o with ENext st => lift (match sink_of None (es_snk st) with Some (KBuf _) => Ok tt | _ => Panic end) | EBrk _ => lift Panic end.
End Run.

(** [value.encode_sync(writer, args)] with that writer. *)
Fixpoint fencode (w : world) (late : string -> list val -> list Z -> nat) (p : program) (rf : nat) (fuel : nat) (n : string) (args : list val) (v : val) : D unit :=
  match fuel with
  | O => lift Hang
  | S fuel =>
      let@ d := lift (of_some (p n)) in
      let@ code := lift (of_some (enc_code p rf d)) in
      let@ inp := lift (bind_params w (d_params d) args []) in
      frun_top w late (fun x => lookup x inp) (fencode w late p rf fuel) code v
  end.
