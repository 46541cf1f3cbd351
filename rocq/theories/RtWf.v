(** Which declarations the round-trip theorem covers, and what it assumes of foreign
    types and transforms. *)
From Verif Require Export EncWf.

(** Which declarations, foreign types and transforms may read to the end of their
    input (and so can only be followed by nothing). *)
Record marks := { mk_ty : string -> bool; mk_f : string -> bool; mk_x : string -> bool }.

Definition foreign_of (p : program) (n : string) : option string :=
  match p n with Some {| d_ty := TForeign f |} => Some f | _ => None end.

(** Laws of the surroundings: a foreign value in the good set reads back as itself and
    leaves the rest; so does a transform's plaintext; [fill_buf] shows everything (an
    in-memory reader). *)
Definition world_laws (w : world) (g : good) (mk : marks) : Prop :=
  (forall f vs v b rest, w_fenc w f vs v = Ok b -> g_f g f vs v = true -> (mk_f mk f = true -> rest = []) ->
     w_fdec w f vs (b ++ rest) = Ok (v, rest))
  /\ (forall x vs l b rest, w_xenc w x vs l = Ok b -> g_x g x vs l = true -> (mk_x mk x = true -> rest = []) ->
     w_xdec w x vs (b ++ rest) = Ok (l, rest))
  /\ (forall n, (n <= w_fill w n)%nat).

Section Wf.
  Variable p : program.
  Variable mk : marks.

  Definition greedy_with (gt : bool) (xs : list xuse) : bool :=
    existsb (fun x => mk_x mk (x_name x)) xs || (forallb (fun x => is_some (x_cond x)) xs && gt).
  Fixpoint greedy (t : ty) : bool :=
    match t with
    | TForeign f => mk_f mk f
    | TRef n _ => match foreign_of p n with Some f => mk_f mk f | None => mk_ty mk n end
    | TArr _ LRest => true
    | TCont None _ items => existsb (fun f => greedy_with (greedy (snd f)) (fa_xs (fst f))) items
    | _ => false
    end.
  Definition greedy_field (f : fattr * ty) : bool := greedy_with (greedy (snd f)) (fa_xs (fst f)).

  (** Types whose values are read back unchanged whatever they are. *)
  Fixpoint simple (t : ty) : bool :=
    match t with
    | TRef n _ => is_some (foreign_of p n)
    | TArr el _ => simple el
    | TCont _ _ _ => false
    | _ => true
    end.

  Definition noncalc (l : list (fattr * ty)) : list string :=
    map (fun f => fa_name (fst f)) (filter (fun f => negb (is_some (fa_calc (fst f))) && leaf f) l).

  (** The fields later expressions may use.  [c]: inside a conditional container.  A
      conditional calculated field is an option for the reader and not for the writer;
      so is a field of a container nested in a conditional one. *)
  Fixpoint exports (c : bool) (a : fattr) (t : ty) : list string :=
    match t with
    | TCont _ _ items =>
        if c then [] else
        if is_some (fa_cond a) then noncalc (flatten_ty t)
        else flat_map (fun f => exports false (fst f) (snd f)) items
    | _ => if fa_pad a || (is_some (fa_calc a) && is_some (fa_cond a)) then [] else [fa_name a]
    end.

  (** [tg]: inside a variant of a tagged container, whose calculated fields are also
      read from the value (so a stale copy is in scope while the length is not known). *)
  Definition field_ok (tg c : bool) (S : list string) (a : fattr) (t : ty) : bool :=
    subset (fvo (fa_cond a) ++ xs_fv (fa_xs a)) S
    && (List.length (fa_xs a) <=? 1)%nat
    && negb (c && is_some (fa_cond a)) && negb (fa_pad a && is_some (fa_cond a))
    && (negb (is_some (fa_calc a)) || (simple t && negb (fa_pad a))) && negb (tg && c && is_some (fa_calc a)).

  (** [S]: fields in scope. *)
  Fixpoint rt_ty (tg c : bool) (S : list string) (t : ty) : bool :=
    match t with
    | TCont len _ items =>
        subset (fvo len) S
        && (fix go S l := match l with
            | [] => true
            | (a, t') :: l =>
                field_ok tg c S a t' && rt_ty tg (c || is_some (fa_cond a)) S t'
                && match l with [] => true | _ => negb (greedy_field (a, t')) end
                && go (S ++ exports c a t') l
            end) S items
    | TArr el _ => negb (greedy el) && rt_ty tg c S el && subset (ty_fv t) S
    | _ => subset (ty_fv t) S
    end.
  Fixpoint rt_items (tg c : bool) (S : list string) (l : list (fattr * ty)) : bool :=
    match l with
    | [] => true
    | (a, t') :: l =>
        field_ok tg c S a t' && rt_ty tg (c || is_some (fa_cond a)) S t'
        && match l with [] => true | _ => negb (greedy_field (a, t')) end
        && rt_items tg c (S ++ exports c a t') l
    end.

  (** Distinct, and not the compiler's own [__blen_...]. *)
  Definition names_ok (l : list string) : bool := nodup l && forallb (fun n => negb (String.prefix "__blen_" n)) l.

  (** A tagged container as a variant of a tagged container (the reader panics). *)
  Definition nested_tag (t : ty) : bool := match t with TCont _ tagged _ => tagged | _ => false end.

  (** Declarations. *)
  Definition rt_decl (d : decl) : bool :=
    (List.length (fa_xs (d_attr d)) <=? 1)%nat && subset (xs_fv (fa_xs (d_attr d))) []
    && match d_ty d with
       | TCont len true items =>
           subset (fvo len) []
           && forallb (fun f => field_ok true false [] (fst f) (snd f) && negb (fa_pad (fst f)) && negb (nested_tag (snd f)) && rt_ty true false [] (snd f)
                                && names_ok (leaf_names (flatten_ty (snd f)))) items
       | TCont len false items => rt_ty false false [] (d_ty d) && names_ok (leaf_names (flatten_items items))
       | t => rt_ty false false [] t
       end.

  (** [mk_ty] marks every declaration that may read to the end. *)
  Definition rt_program : Prop :=
    forall n d, p n = Some d -> foreign_of p n = None ->
      rt_decl d = true /\ (greedy_field (d_attr d, d_ty d) = true -> mk_ty mk n = true).
End Wf.
