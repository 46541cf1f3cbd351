(** The generated decoder reading from a reader that fails (C58): compiler/decoder.rs:16-515 again, with a reader that delivers some bytes and then, if it is [bad],
    returns an I/O error instead of the end of the input.

    Every read of the generated code is [read_exact(..)?], [read_to_end(..)?], [fill_buf()?] or a foreign type's own (decoder.rs:244-512, prelude/*.rs), so it returns the
    reader's error when it needs a byte that is not there, or asks whether the input has ended.  Streams made from a bad reader are bad: a [Take] while it is not used up.
    A foreign type or transform on a bad reader behaves as [bw_fdec], [bw_xdec] say.
    Simplification: a transform either has all it needs or fails with the reader's error when it is set up (its plaintext is not handed on piece by piece). *)
From Verif Require Import Base Scalar EnumBits Expr Asg Gen Decode.
Open Scope string_scope. Open Scope Z_scope. Open Scope list_scope.

(** How a read ends: in the decoder's own way, or with the reader's error. *)
Inductive rout (A : Type) := Own (r : res ioerr A) | Failed.
Arguments Own {A} r. Arguments Failed {A}.
Definition rbind {A B} (m : rout A) (k : A -> rout B) : rout B :=
  match m with
  | Own (Ok a) => k a
  | Own (Err e) => Own (Err e)
  | Own Panic => Own Panic
  | Own Hang => Own Hang
  | Failed => Failed
  end.
Notation "'let?' x ':=' r 'in' k" := (rbind r (fun x => k)) (at level 200, x name, r at level 100, k at level 200, right associativity).

Record bad_world := {
  bw_fdec : string -> list val -> list Z -> rout (val * list Z);
  bw_xdec : string -> list val -> list Z -> rout (list Z * list Z) }.

Inductive fstream := FOwn (b : list Z) (bad : bool) | FTake (parent : option nat) (n : nat) | FAlias (parent : option nat).
Definition fstreams := list (option nat * fstream).
Fixpoint favail (k : option nat) (l : fstreams) : option (list Z * bool) :=
  match l with
  | [] => None
  | (k', s) :: l =>
      if key_eqb k k' then
        match s with
        | FOwn b bad => Some (b, bad)
        | FTake p n => match favail p l with Some (b, bad) => Some (firstn n b, bad && (List.length b <? n)%nat) | None => None end
        | FAlias p => favail p l
        end
      else favail k l
  end.
Fixpoint fconsume (k : option nat) (n : nat) (l : fstreams) : fstreams :=
  match l with
  | [] => []
  | (k', s) :: l =>
      if key_eqb k k' then
        match s with
        | FOwn b bad => (k', FOwn (skipn n b) bad) :: l
        | FTake p m => (k', FTake p (m - n)) :: fconsume p n l
        | FAlias p => (k', s) :: fconsume p n l
        end
      else (k', s) :: fconsume k n l
  end.
Record gst := { gs_regs : regs; gs_strs : fstreams }.
Inductive gout := GNext (st : gst) | GRet (v : val) (st : gst).
Definition glet (r : nat) (v : val) (st : gst) : gst := {| gs_regs := (r, v) :: gs_regs st; gs_strs := gs_strs st |}.
Definition greg (r : nat) (st : gst) : res ioerr val := of_some (assoc r (gs_regs st)).
Definition gavail (s : target) (st : gst) : rout (list Z * bool) := Own (of_some (favail (key s) (gs_strs st))).
Definition gskip (s : target) (n : nat) (st : gst) : gst := {| gs_regs := gs_regs st; gs_strs := fconsume (key s) n (gs_strs st) |}.
Definition gpush (k : option nat) (s : fstream) (st : gst) : gst := {| gs_regs := gs_regs st; gs_strs := (k, s) :: gs_strs st |}.
Definition gleave (st0 st : gst) : gst :=
  {| gs_regs := truncate (List.length (gs_regs st0)) (gs_regs st); gs_strs := truncate (List.length (gs_strs st0)) (gs_strs st) |}.
Definition gtake {A} (s : target) (f : list Z -> bool -> rout (A * list Z)) (st : gst) : rout (A * gst) :=
  let? lb := gavail s st in
  let? ar := f (fst lb) (snd lb) in
  Own (Ok (fst ar, gskip s (List.length (fst lb) - List.length (snd ar)) st)).

(** read_exact and read_to_end. *)
Definition gread (n : nat) (l : list Z) (bad : bool) : rout (list Z * list Z) :=
  if (n <=? List.length l)%nat then Own (Ok (firstn n l, skipn n l)) else if bad then Failed else Own (Err EEof).
Definition gread_all (l : list Z) (bad : bool) : rout (list Z) := if bad then Failed else Own (Ok l).

Fixpoint gfor (n : nat) (body : gst -> rout gout) (st : gst) : rout gout :=
  match n with
  | O => Own (Ok (GNext st))
  | S n => let? o := body st in match o with GNext st => gfor n body st | GRet v st => Own (Ok (GRet v st)) end
  end.
Fixpoint gwhile (fuel : nat) (s : target) (body : gst -> rout gout) (st : gst) : rout gout :=
  match fuel with
  | O => Own Hang
  | S fuel =>
      let? lb := gavail s st in
      match lb with
      | ([], bad) => let? _ := gread_all [] bad in Own (Ok (GNext st))
      | (l, _) =>
          let? o := body st in
          match o with
          | GRet v st => Own (Ok (GRet v st))
          | GNext st' =>
              let? lb' := gavail s st' in
              if (List.length (fst lb') <? List.length l)%nat then gwhile fuel s body st' else Own Hang
          end
      end
  end.
(** decoder.rs:391-443: [fill_buf()?] on a bad reader with nothing left returns the error. *)
Fixpoint gterm (fill : nat -> nat) (fuel : nat) (s : target) (term : list Z) (body : gst -> rout gout) (st : gst) : rout gout :=
  match fuel with
  | O => Own Hang
  | S fuel =>
      let? lb := gavail s st in
      let l := fst lb in
      let buf := firstn (fill (List.length l)) l in
      if (List.length buf =? 0)%nat then let? _ := gread_all [] (snd lb) in Own (Ok (GNext st))
      else if (List.length buf <? List.length term)%nat then Own Hang
      else if zlist_eqb (firstn (List.length term) buf) term then Own (Ok (GNext (gskip s (List.length term) st)))
      else
        let? o := body st in
        match o with
        | GRet v st => Own (Ok (GRet v st))
        | GNext st' =>
            let? lb' := gavail s st' in
            if (List.length (fst lb') <? List.length l)%nat then gterm fill fuel s term body st' else Own Hang
        end
  end.

Section Run.
  Variable w : world.
  Variable bw : bad_world.
  Variable inputs : string -> option val.
  Variable rec : string -> list val -> list Z -> bool -> rout (val * list Z).
  Definition gforeign (n : string) (vs : list val) (l : list Z) (bad : bool) : rout (val * list Z) := if bad then bw_fdec bw n vs l else Own (w_fdec w n vs l).
  Definition gplain (x : string) (vs : list val) (l : list Z) (bad : bool) : rout (list Z * list Z) := if bad then bw_xdec bw x vs l else Own (w_xdec w x vs l).

  (** Decode.v [drun], instruction by instruction. *)
  Fixpoint grun (i : dinstr) (st : gst) {struct i} : rout gout :=
    let seq := fix seq (l : list dinstr) (st : gst) {struct l} : rout gout :=
      match l with
      | [] => Own (Ok (GNext st))
      | i :: l => let? o := grun i st in match o with GNext st => seq l st | GRet v st => Own (Ok (GRet v st)) end
      end in
    match i with
    | DEval r e m =>
        let? v := Own (eval w inputs (fun n => match lookup n m with Some r => assoc r (gs_regs st) | None => None end) e) in
        Own (Ok (GNext (glet r v st)))
    | DConstruct r (CTagged n x) => let? v := Own (greg x st) in Own (Ok (GNext (glet r (VTup v) st)))
    | DConstruct r (CStruct n xs) =>
        let? vs := Own (mapM (fun nr => let! v := greg (snd nr) st in Ok (fst nr, v)) xs) in
        Own (Ok (GNext (glet r (VStruct n vs) st)))
    | DConstruct r (CVariant n d x) => let? v := Own (greg x st) in Own (Ok (GNext (glet r (VVariant n d v) st)))
    | DConstruct r (CVariantS n d xs) =>
        let? vs := Own (mapM (fun nr => let! v := greg (snd nr) st in Ok (fst nr, v)) xs) in
        Own (Ok (GNext (glet r (VVariantS n d vs) st)))
    | DConstrict s r len =>
        let? v := Own (greg len st) in
        let? n := Own (limit_of v) in
        let? _ := gavail s st in
        Own (Ok (GNext (gpush (Some r) (FTake (key s) n) st)))
    | DWrap s r x args =>
        let? vs := Own (mapM (fun a => greg a st) args) in
        let? ps := gtake s (gplain x vs) st in
        Own (Ok (GNext (gpush (Some r) (FOwn (fst ps) false) (snd ps))))
    | DCondWrap c prelude s r x args =>
        let? cv := Own (greg c st) in
        let? b := Own (bool_of cv) in
        let? _ := gavail s st in
        if b then
          let? o := seq prelude st in
          match o with
          | GRet v st => Own (Ok (GRet v st))
          | GNext st' =>
              let? vs := Own (mapM (fun a => greg a st') args) in
              let? ps := gtake s (gplain x vs) (gleave st st') in
              Own (Ok (GNext (gpush (Some r) (FOwn (fst ps) false) (snd ps))))
          end
        else Own (Ok (GNext (gpush (Some r) (FAlias (key s)) st)))
    | DForeign s r n args =>
        let? vs := Own (mapM (fun a => greg a st) args) in
        let? vst := gtake s (gforeign n vs) st in
        Own (Ok (GNext (glet r (fst vst) (snd vst))))
    | DRef s r n args =>
        let? vs := Own (mapM (fun a => greg a st) args) in
        let? vst := gtake s (rec n vs) st in
        Own (Ok (GNext (glet r (fst vst) (snd vst))))
    | DRepr d r s =>
        let? vst := gtake s (fun l bad => let? ar := gread (size (es_scalar (repr_rep d))) l bad in
                                          let? v := Own (repr_of d (fst ar)) in Own (Ok (v, snd ar))) st in
        Own (Ok (GNext (glet r (fst vst) (snd vst))))
    | DPrim s r pr =>
        let? vst := gtake s (fun l bad => let? ar := gread (prim_size pr) l bad in Own (Ok (prim_of pr (fst ar), snd ar))) st in
        Own (Ok (GNext (glet r (fst vst) (snd vst))))
    | DPrimArr s r PBool _ => Own Panic
    | DPrimArr s r pr (Some len) =>
        let? lv := Own (greg len st) in
        let? n := Own (arr_size (w_chk w) (prim_size pr) lv) in
        let? vst := gtake s (fun l bad => let? ar := gread n l bad in
          Own (Ok (VArr (map (prim_of pr) (chunks (n / prim_size pr) (prim_size pr) (fst ar))), snd ar))) st in
        Own (Ok (GNext (glet r (fst vst) (snd vst))))
    | DPrimArr s r pr None =>
        let? vst := gtake s (fun l bad => let? l := gread_all l bad in
          Own (Ok (VArr (map (prim_of pr) (chunks (List.length l / prim_size pr) (prim_size pr) l)), []))) st in
        Own (Ok (GNext (glet r (fst vst) (snd vst))))
    | DReprArr s r d (Some len) =>
        let? lv := Own (greg len st) in
        let? n := Own (arr_size (w_chk w) (size (es_scalar (repr_rep d))) lv) in
        let? vst := gtake s (fun l bad => let? ar := gread n l bad in
          let? vs := Own (mapM (repr_of d) (chunks (n / size (es_scalar (repr_rep d))) (size (es_scalar (repr_rep d))) (fst ar))) in
          Own (Ok (VArr vs, snd ar))) st in
        Own (Ok (GNext (glet r (fst vst) (snd vst))))
    | DReprArr s r d None =>
        let? vst := gtake s (fun l bad => let? l := gread_all l bad in
          let? vs := Own (mapM (repr_of d) (chunks (List.length l / size (es_scalar (repr_rep d))) (size (es_scalar (repr_rep d))) l)) in
          Own (Ok (VArr vs, []))) st in
        Own (Ok (GNext (glet r (fst vst) (snd vst))))
    | DLoop s stop term out body =>
        let iter := fun st => let? o := seq body st in
                              match o with GNext st' => Own (Ok (GNext (gleave st st'))) | o => Own (Ok o) end in
        match stop, term with
        | Some stop, _ =>
            let? v := Own (greg stop st) in
            let? n := Own (len_of v) in
            gfor n iter (glet out (VArr []) st)
        | None, Some term =>
            let? tv := Own (greg term st) in
            let? tb := Own (u8s_of tv) in
            let? lb := gavail s st in
            gterm (w_fill w) (S (List.length (fst lb))) s tb iter (glet out (VArr []) st)
        | None, None =>
            let? lb := gavail s st in
            let? l := gread_all (fst lb) (snd lb) in
            let st1 := gskip s (List.length l) (glet out (VArr []) st) in
            let? o := gwhile (S (List.length l)) s iter (gpush (key s) (FOwn l false) st1) in
            match o with
            | GNext st' => Own (Ok (GNext {| gs_regs := gs_regs st'; gs_strs := truncate (List.length (gs_strs st1)) (gs_strs st') |}))
            | o => Own (Ok o)
            end
        end
    | DLoopOut out item =>
        let? v := Own (greg item st) in
        let? r := Own (of_some (assign out (fun o => match o with VArr l => Some (VArr (l ++ [v])) | _ => None end) (gs_regs st))) in
        Own (Ok (GNext {| gs_regs := r; gs_strs := gs_strs st |}))
    | DCond targets c body =>
        let? cv := Own (greg c st) in
        let? b := Own (bool_of cv) in
        if b then
          let? o := seq body st in
          match o with
          | GRet v st => Own (Ok (GRet v st))
          | GNext st' =>
              let? vs := Own (mapM (fun r => let! v := greg r st' in Ok (r, VOpt (Some v))) targets) in
              let st'' := gleave st st' in
              Own (Ok (GNext {| gs_regs := rev vs ++ gs_regs st''; gs_strs := gs_strs st'' |}))
          end
        else Own (Ok (GNext {| gs_regs := rev (map (fun r => (r, VOpt None)) targets) ++ gs_regs st; gs_strs := gs_strs st |}))
    | DPred c body =>
        let? cv := Own (greg c st) in
        let? b := Own (bool_of cv) in
        if b then
          let? o := seq body st in
          match o with GRet v st => Own (Ok (GRet v st)) | GNext st' => Own (Ok (GNext (gleave st st'))) end
        else Own (Ok (GNext st))
    | DReturn r => let? v := Own (greg r st) in Own (Ok (GRet v st))
    | DError => Own (Err EDecode)
    | DSkip s len =>
        let? lv := Own (greg len st) in
        let? n := Own (len_of lv) in
        let? vst := gtake s (gread n) st in
        Own (Ok (GNext (snd vst)))
    end.
  Fixpoint gseq (l : list dinstr) (st : gst) {struct l} : rout gout :=
    match l with
    | [] => Own (Ok (GNext st))
    | i :: l => let? o := grun i st in match o with GNext st => gseq l st | GRet v st => Own (Ok (GRet v st)) end
    end.
  Definition grun_top (code : list dinstr) (l : list Z) (bad : bool) : rout (val * list Z) :=
    let? o := gseq code {| gs_regs := []; gs_strs := [(None, FOwn l bad)] |} in
    match o with
    | GRet v st => let? rest := Own (of_some (favail None (truncate 1 (gs_strs st)))) in Own (Ok (v, fst rest))
    | GNext _ => Own Panic
    end.
End Run.

(** [T::decode_sync(reader, args)] for a reader that delivers [l] and then fails if [bad]: the value and the bytes not yet taken from it. *)
Fixpoint gdecode (w : world) (bw : bad_world) (p : program) (rf : nat) (fuel : nat) (n : string) (args : list val) (l : list Z) (bad : bool) : rout (val * list Z) :=
  match fuel with
  | O => Own Hang
  | S fuel =>
      let? d := Own (of_some (p n)) in
      let? code := Own (of_some (dec_code p rf d)) in
      let? inp := Own (bind_params w (d_params d) args []) in
      grun_top w bw (fun x => lookup x inp) (gdecode w bw p rf fuel) code l bad
  end.
