(** Which declarations the encoder theorems cover: fields are only used where they are
    in scope, names are distinct, and the length of a container is only asked for by
    one earlier field at a time.

    The compiler's front end guarantees scoping (semantics/convert/container.rs); it
    does not guarantee distinct names across nested containers nor the restrictions on
    [blen] (see the _refuted theorems). *)
From Verif Require Export Spec.

(** Fields an expression mentions. *)
Fixpoint fv (e : expr) : list string :=
  match e with
  | EBin _ l r => fv l ++ fv r
  | EUn _ e => fv e
  | ECast e _ => fv e
  | EIndex a i => fv a ++ fv i
  | EField n _ => [n]
  | ETern c a b => fv c ++ fv a ++ fv b
  | ECall _ args => (fix go l := match l with [] => [] | x :: l => fv x ++ go l end) args
  | EMember t _ _ => fv t
  | _ => []
  end.
Definition fvo (o : option expr) : list string := match o with Some e => fv e | None => [] end.
Definition fvs (l : list expr) : list string := flat_map fv l.
Fixpoint ty_fv (t : ty) : list string :=
  match t with
  | TRef _ args => fvs args
  | TArr el l => match l with LFixed e | LTerm e => fv e | LRest => [] end ++ ty_fv el
  | _ => []
  end.
Definition xs_fv (xs : list xuse) : list string := flat_map (fun x => fvo (x_cond x) ++ fvs (x_args x)) xs.

Definition subset (a b : list string) : bool := forallb (fun n => mem n b) a.
Definition disjoint (a b : list string) : bool := forallb (fun n => negb (mem n b)) a.
Fixpoint nodup (l : list string) : bool := match l with [] => true | n :: l => negb (mem n l) && nodup l end.

(** Names of the containers inside a type; of a field including itself. *)
Fixpoint conts (t : ty) : list string :=
  match t with
  | TCont _ _ items =>
      (fix go (l : list (fattr * ty)) : list string :=
         match l with
         | [] => []
         | (a, t') :: l => (if is_cont t' then fa_name a :: conts t' else []) ++ go l
         end) items
  | _ => []
  end.
Definition cnames (f : fattr * ty) : list string := if is_cont (snd f) then fa_name (fst f) :: conts (snd f) else [].

(** Names that encoding the contents of a container may (re)define. *)
Definition touched (t : ty) : list string := leaf_names (flatten_ty t) ++ map blen_name (conts t).

(** The contents of a container do not redefine what is used after it. *)
Fixpoint disj (vis : list string) (items : list (fattr * ty)) : bool :=
  match items with
  | [] => true
  | (a, t) :: rest => disjoint (touched t) (vis ++ leaf_names (flatten_items rest)) && disj vis rest
  end.

(** At most one field at a time waits for the length of a later, unconditional,
    length-constrained container of the same struct. *)
Fixpoint auto_ok (vis : list string) (wt : option string) (items : list (fattr * ty)) : bool :=
  match items with
  | [] => negb (is_some wt)
  | (a, t) :: rest =>
      match wt with
      | Some c =>
          if String.eqb c (fa_name a) then
            is_some (cont_len t) && negb (is_some (fa_cond a)) && negb (is_some (fa_calc a)) && negb (fa_pad a)
            && auto_ok vis None rest
          else match fa_calc a with
               | Some e => match blen_calls e with Some [] => auto_ok vis wt rest | _ => false end
               | None => auto_ok vis wt rest
               end
      | None =>
          match fa_calc a with
          | Some e =>
              match blen_calls e with
              | Some [] => auto_ok vis None rest
              | Some [c] =>
                  match rewrite_blen [c] e with
                  | Some e' => subset (fv e') (blen_name c :: vis) && auto_ok vis (Some c) rest
                  | None => false
                  end
              | _ => false
              end
          | None => auto_ok vis None rest
          end
      end
  end.

Definition attr_ok (vis : list string) (f : fattr * ty) : bool :=
  subset (fvo (fa_cond (fst f)) ++ xs_fv (fa_xs (fst f))) vis
  && (negb (is_some (fa_calc (fst f))) || negb (is_cont (snd f) || fa_pad (fst f))).

(** [vis]: the fields of the enclosing containers. *)
Fixpoint ewf (vis : list string) (t : ty) : bool :=
  match t with
  | TCont len tg items =>
      let vis' := vis ++ leaf_names items in
      negb tg && subset (fvo len) vis && disj vis' items && auto_ok vis' None items
      && forallb (fun f => attr_ok vis' f && ewf vis' (snd f)) items
  | t => subset (ty_fv t) vis
  end.

(** Declarations. *)
Definition all_conts (items : list (fattr * ty)) : list string := flat_map cnames items.
Definition enc_wf (d : decl) : bool :=
  negb (is_some (fa_cond (d_attr d))) && negb (fa_pad (d_attr d))
  && subset (xs_fv (fa_xs (d_attr d))) []
  && match d_ty d with
     | TCont len true items =>
         subset (fvo len) [] && nodup (all_conts items) &&
         forallb (fun f => negb (fa_pad (fst f)) && attr_ok [] f && ewf [] (snd f)
                           && forallb (fun g => subset (fvo (fa_calc (fst g))) (leaf_names (flatten_ty (snd f))))
                                (flatten_ty (snd f))) items
     | TCont len false items => ewf [] (TCont len false items) && nodup (all_conts items)
     | t => ewf [] t
     end.
