(** Specification for C52: the source texts on which the analysis is claimed never to crash.  Nothing here models code; each clause names the crash it leaves out,
    and P_Crash.v shows that each of these crashes exists. *)
From Verif Require Import Base Scalar Tokens Ast Parse Front Program.
Open Scope list_scope.

(** [k] arguments for parameters [ps]: no more than are required, or the parameters at the end, as many as are required, all optional. *)
Definition required (ps : list fparam) : list fparam := filter (fun q => negb (fp_optional q)) ps.
Definition few (ps : list fparam) (k : nat) : Prop :=
  (k <= List.length (required ps))%nat \/ Forall (fun q => fp_optional q = true) (last_n (List.length (required ps)) ps).

Section Tame.
  (** Argument counts allowed for a function, and for a transform. *)
  Variable FN : name -> nat -> Prop.
  Variable XF : nat -> Prop.
  (** Whether the first item of an enum or bitfield may lack a value: no text has such a tree (P_Crash.v, [C52_parsed_items_have_values]). *)
  Variable HL : Prop.
  (** No expression indexes an array; no call has too many arguments. *)
  Fixpoint e_tame (e : aexpr) : Prop :=
    let all := fix all (l : list aexpr) : Prop := match l with [] => True | e :: l => e_tame e /\ all l end in
    match e with
    | AInt _ _ | AStr _ | ABool _ | ARef _ | AEnumAccess _ _ => True
    | ACall f args => FN f (List.length args) /\ all args
    | AIndex _ _ => False
    | AMember e _ | AUn _ e => e_tame e
    | ACast e t => e_tame e /\ t_tame t
    | ABin _ a b => e_tame a /\ e_tame b
    | ATern c a b => e_tame c /\ e_tame a /\ e_tame b
    end
  with t_tame (t : atype) : Prop :=
    let all := fix all (l : list aexpr) : Prop := match l with [] => True | e :: l => e_tame e /\ all l end in
    match t with
    | YScalar _ | YF32 | YF64 | YBool => True
    | YRef _ args => all args
    | YEnum _ items =>
        match items with (_, VNone) :: _ => HL | _ => True end /\
        (fix all (l : list (name * aenum)) : Prop := match l with [] => True | (_, v) :: l => match v with VExpr e => e_tame e | _ => True end /\ all l end) items
    | YBits _ items =>
        match items with (_, None) :: _ => HL | _ => True end /\
        (fix all (l : list (name * option aexpr)) : Prop := match l with [] => True | (_, v) :: l => match v with Some e => e_tame e | None => True end /\ all l end) items
    | YCont len _ items =>
        match len with Some e => e_tame e | None => True end /\
        (fix all (l : list aitem) : Prop := match l with [] => True | IPad e :: l => e_tame e /\ all l | IField _ f :: l => f_tame f /\ all l end) items
    | YArr t _ len => t_tame t /\ match len with Some e => e_tame e | None => True end
    end
  with f_tame (f : afield) : Prop :=
    match f with
    | AField t calc _ cond xs =>
        t_tame t /\ match calc with Some e => e_tame e | None => True end /\ match cond with Some e => e_tame e | None => True end /\
        (fix all (l : list axform) : Prop :=
           match l with
           | [] => True
           | AXform _ args cond :: l =>
               XF (List.length args) /\ (fix all (l : list aexpr) : Prop := match l with [] => True | e :: l => e_tame e /\ all l end) args /\
               match cond with Some e => e_tame e | None => True end /\ all l
           end) xs
    end.
  Definition d_tame (d : adecl) : Prop :=
    match d with
    | DType _ args f => Forall (fun a => t_tame (ta_type a) /\ match ta_default a with Some e => e_tame e | None => True end) args /\ f_tame f
    | DConst _ t v => t_tame t /\ e_tame v
    | DImport _ _ | DFfi _ _ => True
    end.
  Definition tame (a : aprogram) : Prop := Forall d_tame a.
End Tame.

(** What the resolver offers: argument counts for its functions and transforms. *)
Definition fn_few (rs : resolver) (f : name) (k : nat) : Prop :=
  forall fn, In (f, fn) (r_prelude rs) \/ r_func rs f = Ok (Some fn) -> few (fn_params fn) k.
Definition xf_few (rs : resolver) (k : nat) : Prop := forall x ps, r_xform rs x = Ok (Some ps) -> few ps k.
Definition tame_program (rs : resolver) (a : aprogram) : Prop := tame (fn_few rs) (xf_few rs) True a.
(** The same, with a value for the first item of every enum and bitfield. *)
Definition headed_program (rs : resolver) (a : aprogram) : Prop := tame (fn_few rs) (xf_few rs) False a.

(** A resolver that does not crash itself, whose objects mention only basic types, and whose files are tame too. *)
Definition simple_type (t : fty) : Prop := match t with FScalar _ | FF32 | FF64 | FBool | FForeign _ => True | FArr (FScalar _) _ _ => True | _ => False end.
Definition fparam_basic (q : fparam) : Prop := match fp_type q with Some t => simple_type t | None => True end.
Record sound_resolver (rs : resolver) : Prop := {
  sr_prelude : forall x f, In (x, f) (r_prelude rs) -> simple_type (fn_ret f) /\ Forall fparam_basic (fn_params f);
  sr_type : forall x, r_type rs x <> Panic /\ forall ps, r_type rs x = Ok (Some ps) -> Forall (fun q => simple_type (pm_type q)) ps;
  sr_xform : forall x, r_xform rs x <> Panic /\ forall ps, r_xform rs x = Ok (Some ps) -> Forall fparam_basic ps;
  sr_func : forall x, r_func rs x <> Panic /\ forall f, r_func rs x = Ok (Some f) -> simple_type (fn_ret f) /\ Forall fparam_basic (fn_params f);
  sr_norm : forall x, r_norm rs x <> Panic;
  sr_load : forall x, r_load rs x <> Panic /\ forall text, r_load rs x = Ok (Some text) -> parse text <> Panic /\ forall b, parse text = Ok b -> tame_program rs b }.
