(** How many bytes a declaration says its values take: a least and, where there is one, a largest number, computed
    from the declaration alone (no reader or writer is mentioned).  What the declaration leaves open is [anything]. *)
From Verif Require Import RtWf.
Open Scope string_scope. Open Scope Z_scope. Open Scope list_scope.

Definition range := (Z * option Z)%type.
Definition anything : range := (0, None).
Definition exactly (n : Z) : range := (n, Some n).
Definition opt2 (f : Z -> Z -> Z) (a b : option Z) : option Z := match a, b with Some x, Some y => Some (f x y) | _, _ => None end.
Definition plus (a b : range) : range := (fst a + fst b, opt2 Z.add (snd a) (snd b)).
Definition times (n : Z) (a : range) : range := (n * fst a, option_map (Z.mul n) (snd a)).
(** Either. *)
Definition either (a b : range) : range := (Z.min (fst a) (fst b), opt2 Z.max (snd a) (snd b)).
(** Present or not. *)
Definition maybe (a : range) : range := either (exactly 0) a.
Definition within (a : range) (n : Z) : Prop := fst a <= n /\ match snd a with Some h => n <= h | None => True end.

(** A length written as a number. *)
Fixpoint literal (e : expr) : option Z :=
  match e with
  | EInt c => Some (ci_val c)
  | ECast e (TyScalar s) => match literal e with Some z => if in_range (es_scalar s) z then Some z else None | None => None end
  | _ => None
  end.
(** The number of elements, if the bytes of the array can be counted in 63 bits. *)
Definition count_of (e : expr) : option Z := match literal e with Some z => if (0 <=? z) && (z <? 2 ^ 32) then Some z else None | None => None end.

(** Padding; transforms may change the size. *)
Definition pad_size (t : ty) : range := match t with TArr _ (LFixed e) => match count_of e with Some n => exactly n | None => anything end | _ => anything end.
Definition wrapped (a : fattr) (r : range) : range := match fa_xs a with [] => r | _ => anything end.

Section Sizes.
  Variable p : program.
  Variable rf : nat.
  (** Foreign types. *)
  Variable bf : string -> range.
  Variable rec : string -> range.

  Fixpoint ty_size (t : ty) : range :=
    match t with
    | TScalar e => exactly (Z.of_nat (size (es_scalar e)))
    | TF32 => exactly 4
    | TF64 => exactly 8
    | TBool => exactly 1
    | TEnum d => exactly (Z.of_nat (size (es_scalar (en_rep d))))
    | TBits d => exactly (Z.of_nat (size (es_scalar (bf_rep d))))
    | TForeign f => bf f
    | TRef n _ => match foreign_of p n with Some f => bf f | None => rec n end
    | TArr el (LFixed e) =>
        match count_of e with
        | Some n => times n (match kind_of (resolved p rf el) with
                             | KPrim pr => exactly (Z.of_nat (prim_size pr))
                             | KRepr d => exactly (Z.of_nat (size (es_scalar (repr_rep d))))
                             | KLoop => ty_size el
                             end)
        | None => anything
        end
    | TArr _ _ => anything
    | TCont _ tagged items =>
        if tagged then anything else
        (fix go (l : list (fattr * ty)) : range :=
           match l with
           | [] => exactly 0
           | (a, t) :: l =>
               let body := wrapped a (if fa_pad a then pad_size t else ty_size t) in
               plus (match fa_cond a with None => body | Some _ => maybe body end) (go l)
           end) items
    end.

  (** The variants of a tagged enum; If no condition holds, nothing is written (C41). *)
  Fixpoint variants_size (items : list (fattr * ty)) : range :=
    match items with
    | [] => exactly 0
    | (a, t) :: items =>
        let s := wrapped a (if fa_pad a then pad_size t else ty_size t) in
        match fa_cond a with None => s | Some _ => either s (variants_size items) end
    end.

  Definition decl_size (d : decl) : range :=
    match fa_xs (d_attr d) with
    | _ :: _ => anything
    | [] => match d_ty d with
            | TForeign _ => anything
            | TCont _ true items => variants_size items
            | t => ty_size t
            end
    end.
End Sizes.

(** [k] levels of references are looked into. *)
Fixpoint bounds (p : program) (rf : nat) (bf : string -> range) (k : nat) (n : string) : range :=
  match k with
  | O => anything
  | S k => match p n with Some d => decl_size p rf bf (bounds p rf bf k) d | None => anything end
  end.

Notation len l := (Z.of_nat (List.length l)).
(** [f] takes a number of bytes within [a] from the front. *)
Definition takes_within {A} (a : range) (f : list Z -> res ioerr (A * list Z)) : Prop := forall l x rest, f l = Ok (x, rest) -> exists n, len l = n + len rest /\ within a n /\ 0 <= n.
Definition gives_within (a : range) (r : res ioerr (list Z)) : Prop := forall b, r = Ok b -> within a (len b).
(** The foreign types of a world take, and write, numbers of bytes within [bf]. *)
Definition world_sizes (w : world) (bf : string -> range) : Prop :=
  (forall f vs, takes_within (bf f) (w_fdec w f vs)) /\ (forall f vs v, gives_within (bf f) (w_fenc w f vs v)).
