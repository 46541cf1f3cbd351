(** What the prelude's resolver offers to the analysis (prelude/resolver.rs, and [arguments]/[return_type]/[assignable_from] of prelude/*.rs). *)
From Verif Require Import Base Scalar ConstInt Tokens Ast Parse Front Program.
Open Scope string_scope. Open Scope Z_scope. Open Scope list_scope.

Definition any_param : fparam := {| fp_type := None; fp_optional := false |}.
Definition u64_type : fty := FScalar {| es_scalar := U64; es_endian := Big |}.
Definition u64_param : fparam := {| fp_type := Some u64_type; fp_optional := false |}.
(** utf8.rs:86-93, utf16.rs:66-73. *)
Definition length_param (d : option fexpr) : param := {| pm_name := bs "length"; pm_type := u64_type; pm_default := d |}.
(** resolver.rs:23-34 [resolve_ffi_type]; var.rs:116-118. *)
Definition prelude_type (x : name) : option (list param) :=
  if existsb (name_eqb x) [bs "v8"; bs "v16"; bs "v32"; bs "v64"; bs "v128"] then Some []
  else if name_eqb x (bs "utf8") then Some [length_param (Some (FInt (CI U64 18446744073709551615)))]
  else if name_eqb x (bs "utf16") then Some [length_param None]
  else None.
(** resolver.rs:15-21 [resolve_ffi_transform]; base64.rs:36-38, gzip.rs:40-42. *)
Definition prelude_xform (x : name) : option (list fparam) := if name_eqb x (bs "base64") || name_eqb x (bs "gzip") then Some [] else None.
(** resolver.rs:36-45 [resolve_ffi_function]; len.rs:39-52, blen.rs:7-17, pad.rs:6-23, bits.rs:6-16, sum.rs:6-16. *)
Definition prelude_func (x : name) : option func :=
  if name_eqb x (bs "len") || name_eqb x (bs "blen") || name_eqb x (bs "sum") then Some {| fn_params := [any_param]; fn_ret := u64_type |}
  else if name_eqb x (bs "pad") then Some {| fn_params := [u64_param; u64_param]; fn_ret := u64_type |}
  else if name_eqb x (bs "bits") then Some {| fn_params := [u64_param]; fn_ret := FScalar {| es_scalar := U8; es_endian := Big |} |}
  else None.
(** resolver.rs:4-59, around the user's resolver; len and blen need no import (47-58). *)
Definition with_prelude (rs : resolver) : resolver := {|
  r_prelude := [(bs "len", {| fn_params := [any_param]; fn_ret := u64_type |}); (bs "blen", {| fn_params := [any_param]; fn_ret := u64_type |})];
  r_type := fun x => match prelude_type x with Some ps => Ok (Some ps) | None => r_type rs x end;
  r_xform := fun x => match prelude_xform x with Some ps => Ok (Some ps) | None => r_xform rs x end;
  r_func := fun x => match prelude_func x with Some f => Ok (Some f) | None => r_func rs x end;
  r_norm := r_norm rs; r_load := r_load rs |}.
(** The objects behind the names: var.rs:31-60, utf8.rs:6-17, utf16.rs:6-17. *)
Definition prelude_object (x : name) : fobj :=
  if name_eqb x (bs "utf8") then FoArr U8 else if name_eqb x (bs "utf16") then FoArr U16
  else if name_eqb x (bs "v8") then FoVar I8 else if name_eqb x (bs "v16") then FoVar I16 else if name_eqb x (bs "v32") then FoVar I32
  else if name_eqb x (bs "v64") then FoVar I64 else FoVar I128.
Definition prelude_env : env := {| e_obj := prelude_object; e_eq := fun _ _ => true |}.
