(** Which declarations the code generators take: the specification for C56.  The generators are Decode.v and Encode.v; where they give [None] the compiler panics. *)
From Verif Require Import Decode Encode EncWf.
Open Scope string_scope. Open Scope Z_scope. Open Scope list_scope.

(** ** Shape: what the analysis always delivers (GenFront.v)

    A padding directive is a fixed-length array; the elements of arrays are no containers; nested containers are not tagged. *)
Definition pad_type (t : ty) : bool := match t with TArr _ (LFixed _) => true | _ => false end.
Fixpoint leaf_ok (t : ty) : bool := match t with TCont _ _ _ => false | TArr el _ => leaf_ok el | _ => true end.
Fixpoint shape (t : ty) : bool :=
  match t with
  | TCont _ tagged items => negb tagged && forallb (fun f => if fa_pad (fst f) then pad_type (snd f) else shape (snd f)) items
  | t => leaf_ok t
  end.
Definition decl_shape (d : decl) : bool :=
  negb (fa_pad (d_attr d)) &&
  match d_ty d with
  | TCont _ true items => forallb (fun f => negb (fa_pad (fst f)) && shape (snd f)) items
  | t => shape t
  end.

(** ** Decoders: a condition must be on something that has a value *)
(** A container has a value if some field in it has one; padding has none. *)
Fixpoint has_value (t : ty) : bool :=
  match t with TCont _ _ items => existsb (fun f => negb (fa_pad (fst f)) && has_value (snd f)) items | _ => true end.
Definition conditional (a : fattr) : bool := is_some (fa_cond a).
Fixpoint conds_ok (t : ty) : bool :=
  match t with
  | TCont _ _ items => forallb (fun f => fa_pad (fst f) || (conds_ok (snd f) && (negb (conditional (fst f)) || has_value (snd f)))) items
  | _ => true
  end.
(** Variants after the first unconditional one are never reached. *)
Fixpoint variants_ok (items : list (fattr * ty)) : bool :=
  match items with
  | [] => true
  | (a, t) :: l => conds_ok t && (negb (conditional a) || variants_ok l)
  end.
Definition decl_conds_ok (d : decl) : bool :=
  match d_ty d with
  | TCont _ true items => variants_ok items && (negb (conditional (d_attr d)) || existsb (fun f => negb (conditional (fst f))) items)
  | t => conds_ok t
  end.

(** ** Encoders: blen(c) needs a later container c with a declared length *)
(** The containers with a declared length among the items. *)
Definition sized (items : list (fattr * ty)) : list string :=
  flat_map (fun f => match snd f with TCont (Some _) _ _ => if fa_pad (fst f) then [] else [fa_name (fst f)] | _ => [] end) items.
Definition blen_field (later : list string) (a : fattr) (t : ty) : bool :=
  match fa_calc a with
  | None => true
  | Some e => match blen_calls e with
              | None => false
              | Some [] => true
              | Some l => negb (is_cont t) && negb (fa_pad a) && forallb (fun n => mem n later) l
              end
  end.
Fixpoint blen_items (l : list (fattr * ty)) : bool :=
  match l with [] => true | (a, t) :: l => blen_field (sized l) a t && blen_items l end.
Fixpoint blens_ok (t : ty) : bool :=
  match t with TCont _ _ items => blen_items items && forallb (fun f => blens_ok (snd f)) items | _ => true end.
Definition decl_blens_ok (d : decl) : bool :=
  match d_ty d with TCont _ true items => forallb (fun f => blens_ok (snd f)) items | t => blens_ok t end.
(** No blen anywhere. *)
Definition no_blen_calc (a : fattr) : bool := match fa_calc a with Some e => match blen_calls e with Some [] => true | _ => false end | None => true end.
Fixpoint no_blens (t : ty) : bool := match t with TCont _ _ items => forallb (fun f => no_blen_calc (fst f) && no_blens (snd f)) items | _ => true end.
