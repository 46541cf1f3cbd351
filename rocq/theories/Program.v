(** Whole programs: declarations, imports and the recursion scan (semantics/convert/program/, asg/program.rs).
    All paths are relative to protospec-build/src. *)
From Verif Require Import Base Scalar ConstInt Tokens Ast Parse Front.
Open Scope list_scope.

(** import.rs ImportResolver.  [r_norm] includes [String::from_utf8_lossy] of the path.  The objects behind
    foreign types are in [env]; here only their parameters. *)
Record resolver := {
  r_prelude : list (name * func);
  r_type : name -> R (option (list param));
  r_xform : name -> R (option (list fparam));
  r_func : name -> R (option func);
  r_norm : list Z -> R name;
  r_load : name -> R (option (list Z)) }.

Definition with_types (p : prog) (m : list (name * nat)) : prog :=
  {| p_store := p_store p; p_types := m; p_consts := p_consts p; p_xforms := p_xforms p; p_funcs := p_funcs p |}.
Definition with_consts (p : prog) (m : list (name * const)) : prog :=
  {| p_store := p_store p; p_types := p_types p; p_consts := m; p_xforms := p_xforms p; p_funcs := p_funcs p |}.
Definition with_xforms (p : prog) (m : list (name * list fparam)) : prog :=
  {| p_store := p_store p; p_types := p_types p; p_consts := p_consts p; p_xforms := m; p_funcs := p_funcs p |}.
Definition with_funcs (p : prog) (m : list (name * func)) : prog :=
  {| p_store := p_store p; p_types := p_types p; p_consts := p_consts p; p_xforms := p_xforms p; p_funcs := m |}.
Definition with_store (p : prog) (s : list field) : prog :=
  {| p_store := s; p_types := p_types p; p_consts := p_consts p; p_xforms := p_xforms p; p_funcs := p_funcs p |}.

Section Program.
  Variable en : env.
  Variable n : nat.
  Variable rs : resolver.

  (** program/ffi.rs:6-14 add_prelude_ffi. *)
  Fixpoint add_prelude (l : list (name * func)) (p : prog) : prog :=
    match l with
    | [] => p
    | (x, f) :: l => add_prelude l (with_funcs p (mput x f (p_funcs p)))
    end.

  (** program/ffi.rs:16-95 convert_ffi_declaration. *)
  Definition ffi_decl (x : name) (k : ffi) (p : prog) : R prog :=
    match k with
    | FType =>
        let! o := r_type rs x in
        match o with
        | None => Err XFfiMissing
        | Some ps =>
            match mget x (p_types p) with
            | Some _ => Err (XTypeRedef x)
            | None =>
                let i := List.length (p_store p) in
                let p := st_add p {| f_name := x; f_params := ps; f_type := FForeign x; f_calc := None; f_cond := None; f_xs := [];
                                     f_top := true; f_cyclic := false; f_pad := false |} in
                Ok (with_types p (mput x i (p_types p)))
            end
        end
    | FTransform =>
        let! o := r_xform rs x in
        match o with
        | None => Err XFfiMissing
        | Some ps => match mget x (p_xforms p) with Some _ => Err (XTransformRedef x) | None => Ok (with_xforms p (mput x ps (p_xforms p))) end
        end
    | FFunction =>
        let! o := r_func rs x in
        match o with
        | None => Err XFfiMissing
        | Some f => match mget x (p_funcs p) with Some _ => Err (XFunctionRedef x) | None => Ok (with_funcs p (mput x f (p_funcs p))) end
        end
    end.
  Fixpoint ffi_decls (l : aprogram) (p : prog) : R prog :=
    match l with
    | [] => Ok p
    | DFfi x k :: l => let! p := ffi_decl x k p in ffi_decls l p
    | _ :: l => ffi_decls l p
    end.

  (** program/import.rs:6-43 convert_import_declaration. *)
  Definition cache := list (name * prog).
  Fixpoint import_items (q : prog) (l : list (name * option name)) (p : prog) : R prog :=
    match l with
    | [] => Ok p
    | (x, alias) :: l =>
        let y := match alias with Some y => y | None => x end in
        match mget x (p_types q) with
        | Some i => import_items q l (with_types p (mput y i (p_types p)))
        | None =>
            match mget x (p_consts q) with
            | Some c => import_items q l (with_consts p (mput y c (p_consts p)))
            | None =>
                match mget x (p_xforms q) with
                | Some f => import_items q l (with_xforms p (mput y f (p_xforms p)))
                | None => Err XImportUnresolved
                end
            end
        end
    end.
  Fixpoint import_decls (c : cache) (l : aprogram) (p : prog) : R prog :=
    match l with
    | [] => Ok p
    | DImport items from :: l =>
        let! x := r_norm rs from in
        match mget x c with
        | None => Err XImportMissing
        | Some q => let! p := import_items q items p in import_decls c l p
        end
    | _ :: l => import_decls c l p
    end.

  Definition is_def (f : afield) : bool := match f with AField (YEnum _ _) _ _ _ _ | AField (YBits _ _) _ _ _ _ => true | _ => false end.
  (** The outermost scope (program/mod.rs:36-41) declares nothing. *)
  Definition scope0 : scope := [frame0].

  (** program/field.rs:6-37 convert_type_declaration. *)
  Definition type_decl (x : name) (p : prog) : R (nat * prog) :=
    match mget x (p_types p) with
    | Some _ => Err (XTypeRedef x)
    | None => let i := List.length (p_store p) in
              let p := st_add p (placeholder x true) in
              Ok (i, with_types p (mput x i (p_types p)))
    end.
  (** convert/field.rs:4-46 on a top-level field: the parameters, and the frame that holds them. *)
  Definition type_params (i : nat) (args : list targ) (p : prog) : R (frame * prog) :=
    let! r := cparams en n scope0 args frame0 [] p in
    let '(fr, ps, p) := r : frame * list param * prog in
    Ok (fr, st_set p i (set_params ps)).
  (** convert/field.rs:48-165 on a top-level field. *)
  Definition type_body (fr : frame) (i : nat) (x : name) (f : afield) (p : prog) : R prog :=
    let! p := cmid en n (fr :: scope0) f (ForType x) i p in
    cend en n (fr :: scope0) (calc_of f) i p.

  (** program/const_.rs:6-41 convert_const_declaration. *)
  Definition const_decl (x : name) (t : atype) (v : aexpr) (p : prog) : R prog :=
    match mget x (p_consts p) with
    | Some _ => Err (XConstRedef x)
    | None =>
        let! r := ctype en n scope0 t ForConst p in
        let (t', p) := r : fty * prog in
        match t' with
        | FCont _ _ _ | FEnum _ _ _ | FBits _ _ _ => Err XConstType
        | _ =>
            let! xt := into_partial n p t' in
            let! v' := cexpr en n p scope0 v xt in
            Ok (with_consts p (mput x {| c_name := x; c_type := t'; c_value := v' |} (p_consts p)))
        end
    end.

  (** program/mod.rs:73-97: enums, bitfields and constants, in order. *)
  Fixpoint early (l : aprogram) (p : prog) : R prog :=
    match l with
    | [] => Ok p
    | DType x args f :: l =>
        if is_def f then
          let! r := type_decl x p in
          let (i, p) := r : nat * prog in
          let! r := type_params i args p in
          let (fr, p) := r : frame * prog in
          let! p := type_body fr i x f p in
          early l p
        else early l p
    | DConst x t v :: l => let! p := const_decl x t v p in early l p
    | _ :: l => early l p
    end.
  (** program/mod.rs:99-114: the names of the other types ... *)
  Fixpoint late_names (l : aprogram) (p : prog) : R (list (nat * name * list targ * afield) * prog) :=
    match l with
    | [] => Ok ([], p)
    | DType x args f :: l =>
        if is_def f then late_names l p else
        let! r := type_decl x p in
        let (i, p) := r : nat * prog in
        let! r := late_names l p in
        let (q, p) := r : list (nat * name * list targ * afield) * prog in
        Ok ((i, x, args, f) :: q, p)
    | _ :: l => late_names l p
    end.
  (** ... 116-124: their parameters ... *)
  Fixpoint late_params (l : list (nat * name * list targ * afield)) (p : prog) : R (list (frame * nat * name * afield) * prog) :=
    match l with
    | [] => Ok ([], p)
    | (i, x, args, f) :: l =>
        let! r := type_params i args p in
        let (fr, p) := r : frame * prog in
        let! r := late_params l p in
        let (q, p) := r : list (frame * nat * name * afield) * prog in
        Ok ((fr, i, x, f) :: q, p)
    end.
  (** ... 126-130: and the rest. *)
  Fixpoint late_bodies (l : list (frame * nat * name * afield)) (p : prog) : R prog :=
    match l with
    | [] => Ok p
    | (fr, i, x, f) :: l => let! p := type_body fr i x f p in late_bodies l p
    end.

  (** asg/types/mod.rs:161-186 and asg/field.rs:33-38 get_indirect_contained_fields. *)
  Definition mem (x : name) (l : list name) : bool := existsb (name_eqb x) l.
  Fixpoint gather (n : nat) (p : prog) (t : fty) (acc : list name) {struct n} : R (list name) :=
    match n with
    | O => Hang
    | S n =>
        let enter i acc :=
          match fget p i with
          | None => Panic
          | Some f => if mem (f_name f) acc then Ok acc else gather n p (f_type f) (acc ++ [f_name f])
          end in
        match t with
        | FArr el _ _ => gather n p el acc
        | FCont _ items _ => fold_left (fun (r : R (list name)) (x : name * nat) => let! acc := r in enter (snd x) acc) items (Ok acc)
        | FRef i _ => enter i acc
        | _ => Ok acc
        end
    end.
  Definition set_cyclic (f : field) : field :=
    {| f_name := f_name f; f_params := f_params f; f_type := f_type f; f_calc := f_calc f; f_cond := f_cond f; f_xs := f_xs f;
       f_top := f_top f; f_cyclic := true; f_pad := f_pad f |}.
  (** asg/program.rs:12-20 scan_cycles. *)
  Fixpoint scan (l : list (name * nat)) (p : prog) : R prog :=
    match l with
    | [] => Ok p
    | (_, i) :: l =>
        match fget p i with
        | None => Panic
        | Some f => let! names := gather n p (f_type f) [] in
                    scan l (if mem (f_name f) names then st_set p i set_cyclic else p)
        end
    end.

  (** program/mod.rs:25-139 from_ast_imported; the store is shared with the imported programs. *)
  Definition from_ast_imported (a : aprogram) (c : cache) (store : list field) : R prog :=
    let p := {| p_store := store; p_types := []; p_consts := []; p_xforms := []; p_funcs := [] |} in
    let p := add_prelude (r_prelude rs) p in
    let! p := ffi_decls a p in
    let! p := import_decls c a p in
    let! p := early a p in
    let! r := late_names a p in
    let (l, p) := r : list (nat * name * list targ * afield) * prog in
    let! r := late_params l p in
    let (l, p) := r : list (frame * nat * name * afield) * prog in
    let! p := late_bodies l p in
    scan (p_types p) p.

  (** program/resolve.rs:4-37 from_ast_imports; [k] bounds the depth of nested imports.  The first component lists the files asked for with
      [resolve_import] (line 17), in order, whatever the outcome: it is only there to state how often a file is loaded. *)
  Definition bindl {A B} (r : R A) (log : list name) (k : A -> list name * R B) : list name * R B :=
    match r with Ok x => k x | Err e => (log, Err e) | Panic => (log, Panic) | Hang => (log, Hang) end.
  Definition parsed (r : res perr aprogram) : R aprogram :=
    match r with Ok b => Ok b | Err e => Err (XImportParse e) | Panic => Panic | Hang => Hang end.
  Fixpoint load (k : nat) (a : aprogram) (c : cache) (store : list field) (log : list name) {struct k} : list name * R (cache * list field) :=
    match k with
    | O => (log, Hang)
    | S k =>
        (fix go (a : aprogram) (c : cache) (store : list field) (log : list name) {struct a} : list name * R (cache * list field) :=
           match a with
           | [] => (log, Ok (c, store))
           | DImport _ from :: a =>
               bindl (r_norm rs from) log (fun x =>
               match mget x c with
               | Some _ => go a c store log
               | None =>
                   let log := log ++ [x] in
                   bindl (r_load rs x) log (fun t =>
                   match t with
                   | None => (log, Err XImportMissing)
                   | Some text =>
                       bindl (parsed (parse text)) log (fun b =>
                       let (log, r) := load k b c store log in
                       bindl r log (fun r =>
                       let (c, store) := r : cache * list field in
                       bindl (from_ast_imported b c store) log (fun q =>
                       go a (mput x q c) (p_store q) log)))
                   end)
               end)
           | _ :: a => go a c store log
           end) a c store log
    end.
  (** program/mod.rs:13-23 from_ast. *)
  Definition from_ast (k : nat) (a : aprogram) : R prog :=
    let! r := snd (load k a [] [] []) in
    let (c, store) := r : cache * list field in
    from_ast_imported a c store.
End Program.
