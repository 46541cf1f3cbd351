(** What the generated data types derive: compiler/mod.rs:19-91 (CompileOptions), lib.rs:35-60 (Options), and the Default implementations and derive
    attributes of mod.rs:145-176, 375-469, 471-599, 601-732. *)
From Verif Require Import Spec RtWf Data.
From Coq Require Import Ascii.
Open Scope string_scope. Open Scope Z_scope. Open Scope list_scope.

(** mod.rs:19-26, the part that concerns data types. *)
Record derive_options := { struct_derives : list string; enum_derives : list string }.
(** mod.rs:28-48 CompileOptions::default; lib.rs:45-60 Options::default (what compile_spec is normally given). *)
Definition compile_defaults : derive_options :=
  let l := ["PartialEq"; "Debug"; "Clone"; "Default"] in {| struct_derives := l; enum_derives := l |}.
Definition spec_defaults : derive_options :=
  let l := ["Eq"; "PartialEq"; "Debug"; "Clone"; "Default"] in {| struct_derives := l; enum_derives := l |}.

(** [Vec::sort] then [Vec::dedup]. *)
Fixpoint insert (x : string) (l : list string) : list string :=
  match l with
  | [] => [x]
  | y :: l' => match String.compare x y with Lt => x :: l | Eq => l | Gt => y :: insert x l' end
  end.
Definition sort_dedup (l : list string) : list string := fold_right insert [] l.
(** mod.rs:51-69 emit_struct_derives, emit_enum_derives. *)
Definition struct_list (o : derive_options) (extra : list string) : list string := sort_dedup (struct_derives o ++ extra).
Definition enum_list (o : derive_options) (extra : list string) : list string :=
  sort_dedup (filter (fun x => negb (String.eqb x "Default")) (enum_derives o ++ extra)).
(** mod.rs:71-89 emit_derives, 273-278 emit_ident: format_ident! panics ([None]) unless the text is an identifier.  Simplification: ASCII identifiers. *)
Definition alpha (c : ascii) : bool := let n := nat_of_ascii c in ((65 <=? n) && (n <=? 90) || (97 <=? n) && (n <=? 122) || (n =? 95))%nat.
Definition digit (c : ascii) : bool := let n := nat_of_ascii c in ((48 <=? n) && (n <=? 57))%nat.
Definition rust_ident (s : string) : bool :=
  match list_ascii_of_string s with c :: r => alpha c && forallb (fun c => alpha c || digit c) r | [] => false end.
Definition emit_derives (l : list string) : option (list string) := if forallb rust_ident l then Some l else None.

Definition mem_s (x : string) (l : list string) : bool := existsb (String.eqb x) l.
(** The derive attribute of a generated definition: mod.rs:167, 382, 459, 530, 649. *)
Definition attr_list (o : derive_options) (g : gdef) : list string :=
  match g with
  | GStruct _ | GTuple _ => struct_list o []
  | GTagged _ => enum_list o []
  | GEnum _ => enum_list o ["Clone"; "Copy"]
  | GBits _ => struct_list o ["Clone"; "Copy"; "Default"]
  | GNone => []
  end.
(** Whether an [impl Default] is written out: mod.rs:408, 534. *)
Definition writes_default (o : derive_options) (g : gdef) : bool :=
  match g with GTagged _ | GEnum _ => mem_s "Default" (enum_derives o) | _ => false end.
(** asg/types/container.rs:12-19 flatten_view and mod.rs:419-426: the fields the written-out Default of a struct variant sets. *)
Fixpoint default_field (a : fattr) (t : ty) {struct t} : list string :=
  match t with
  | TCont _ _ items => (fix go (l : list (fattr * ty)) : list string := match l with [] => [] | f :: l => default_field (fst f) (snd f) ++ go l end) items
  | _ => if fa_pad a then [] else [fa_name a]
  end.
Definition default_fields (items : list (fattr * ty)) : list string := flat_map (fun f => default_field (fst f) (snd f)) items.
(** The written-out Default: the variant it names, and how its payload is built.  [None]: "missing enum entry for default" (mod.rs:410, 535). *)
Inductive payload := PUnit | PTuple | PNamed (fields : list string).
Definition default_of (d : decl) : option (string * payload) :=
  match d_ty d with
  | TCont _ true ((a, TCont _ _ sub) :: _) => Some (fa_name a, PNamed (default_fields sub))
  | TCont _ true ((a, _) :: _) => Some (fa_name a, PTuple)
  | TEnum e => match en_items e with (x, _) :: _ => Some (x, PUnit) | [] => None end
  | _ => None
  end.

(** ** Specification: what rustc demands of derives and implementations

    The standard derivable traits, their supertraits, and which types implement them. *)
Definition std_traits : list string := ["Clone"; "Copy"; "Debug"; "Default"; "Eq"; "Hash"; "Ord"; "PartialEq"; "PartialOrd"].
Definition supertraits (t : string) : list string :=
  if String.eqb t "Copy" then ["Clone"] else if String.eqb t "Eq" then ["PartialEq"] else if String.eqb t "PartialOrd" then ["PartialEq"]
  else if String.eqb t "Ord" then ["Eq"; "PartialOrd"] else [].
(** The standard library does not implement these for floating point numbers. *)
Definition not_floats : list string := ["Eq"; "Ord"; "Hash"].
Section Rustc.
  Variable p : program.
  Variable o : derive_options.
  (** The traits a foreign type implements. *)
  Variable F : string -> string -> Prop.

  (** A generated definition implements what it derives and what is written out for it. *)
  Definition implemented (g : gdef) (tr : string) : Prop := In tr (attr_list o g) \/ (writes_default o g = true /\ tr = "Default").
  Fixpoint implements (tr : string) (t : rty) : Prop :=
    match t with
    | RTInt _ | RTBool => In tr std_traits
    | RTF32 | RTF64 => In tr std_traits /\ ~ In tr not_floats
    | RTVec t => tr = "Default" \/ (tr <> "Copy" /\ In tr std_traits /\ implements tr t)
    | RTOpt t => tr = "Default" \/ (In tr std_traits /\ implements tr t)
    | RTForeign f => F f tr
    | RTNamed n => exists d g, p n = Some d /\ data_of p d = Some g /\ implemented g tr
    end.
  (** The types stored in a definition. *)
  Definition stored (g : gdef) : list rty :=
    match g with
    | GStruct fs => map snd fs
    | GTuple t => [t]
    | GTagged vs => flat_map (fun v => match snd v with inl t => [t] | inr fs => map snd fs end) vs
    | GEnum e => flat_map (fun i => match snd i with None => [RTInt (es_scalar (en_rep e))] | Some _ => [] end) (en_items e)
    | GBits b => [RTInt (es_scalar (bf_rep b))]
    | GNone => []
    end.
  (** derive(tr) on a definition: every stored type implements tr, the definition implements tr's supertraits; Default cannot be derived for an enum without a marked variant. *)
  Definition derives_ok (g : gdef) (tr : string) : Prop :=
    (forall t, In t (stored g) -> implements tr t) /\ (forall s, In s (supertraits tr) -> implemented g s) /\
    (tr = "Default" -> match g with GTagged _ | GEnum _ => False | _ => True end).
  (** The written-out Default builds a value of the definition from Default::default()s. *)
  Definition default_ok (d : decl) (g : gdef) : Prop :=
    match default_of d, g with
    | Some (x, PTuple), GTagged vs => exists t, lookup x vs = Some (inl t) /\ implements "Default" t
    | Some (x, PNamed l), GTagged vs => exists fs, lookup x vs = Some (inr fs) /\ l = map fst fs /\ forall t, In t (map snd fs) -> implements "Default" t
    | Some (x, PUnit), GEnum e => exists z, lookup x (en_items e) = Some (Some z)
    | _, _ => False
    end.
  (** rustc accepts the derives and the Default of a generated definition; the methods of a bitfield (mod.rs:635-643) compare flags. *)
  Record accepts (d : decl) (g : gdef) : Prop := {
    ac_idents : emit_derives (attr_list o g) <> None;
    ac_once : NoDup (attr_list o g) /\ (writes_default o g = true -> ~ In "Default" (attr_list o g));
    ac_derives : forall tr, In tr (attr_list o g) -> derives_ok g tr;
    ac_default : writes_default o g = true -> default_ok d g;
    ac_flags : match g with GBits b => bf_items b <> [] -> implemented g "PartialEq" /\ implemented g "Copy" | _ => True end
  }.
End Rustc.

(** The types mentioned in a type. *)
Fixpoint names_in (t : rty) : list string := match t with RTVec t | RTOpt t => names_in t | RTNamed n => [n] | _ => [] end.
Fixpoint foreign_in (t : rty) : list string := match t with RTVec t | RTOpt t => foreign_in t | RTForeign f => [f] | _ => [] end.
Fixpoint has_float (t : rty) : bool := match t with RTVec t | RTOpt t => has_float t | RTF32 | RTF64 => true | _ => false end.
