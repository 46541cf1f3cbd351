(** Which type contains which: specification for C27. *)
From Verif Require Import Base Front.
Open Scope list_scope.

(** The fields and types a type mentions directly: the items of a container, the target of a reference, whatever an array's element mentions. *)
Fixpoint mentions (t : fty) : list nat :=
  match t with FArr el _ _ => mentions el | FCont _ items _ => map snd items | FRef i _ => [i] | _ => [] end.
Definition edge (p : prog) (i j : nat) : Prop := exists f, fget p i = Some f /\ In j (mentions (f_type f)).
(** [j] can be reached from [i] in one step or more. *)
Inductive reaches (p : prog) : nat -> nat -> Prop :=
| reaches_one i j : edge p i j -> reaches p i j
| reaches_more i j k : edge p i j -> reaches p j k -> reaches p i k.
(** No two fields or types met from [i] share a name. *)
Definition met (p : prog) (i j : nat) : Prop := j = i \/ reaches p i j.
Definition own_names (p : prog) (i : nat) : Prop :=
  forall j k g h, met p i j -> met p i k -> fget p j = Some g -> fget p k = Some h -> f_name g = f_name h -> j = k.
