(** The code generators' bookkeeping monad: a context threaded through, and the
    instructions pushed so far.  [None] is a panic of the compiler itself. *)
From Verif Require Export Asg.

Section Gen.
  Variables I C : Type.
  Definition gen (A : Type) := C -> option (list I * A * C).
  Definition gret {A} (a : A) : gen A := fun c => Some ([], a, c).
  Definition gbind {A B} (m : gen A) (f : A -> gen B) : gen B :=
    fun c => match m c with
             | Some (is1, a, c1) =>
                 match f a c1 with
                 | Some (is2, b, c2) => Some (is1 ++ is2, b, c2)
                 | None => None
                 end
             | None => None
             end.
  Definition gfail {A} : gen A := fun _ => None.
  Definition tell (i : I) : gen unit := fun c => Some ([i], tt, c).
  (** [self.instructions.drain(start..)]: the instructions are returned instead of
      being left in the list. *)
  Definition block {A} (m : gen A) : gen (list I * A) :=
    fun c => match m c with Some (is1, a, c1) => Some ([], (is1, a), c1) | None => None end.
End Gen.
Arguments gret {I C A}. Arguments gbind {I C A B}. Arguments gfail {I C A}.
Arguments tell {I C}. Arguments block {I C A}.
Notation "'do' x '<-' m ';' k" := (gbind m (fun x => k))
  (at level 200, x pattern, m at level 100, k at level 200).

Lemma gbind_some {I C A B} (m : gen I C A) (f : A -> gen I C B) c is2 b c2 :
  gbind m f c = Some (is2, b, c2) ->
  exists i1 a c1 i2, m c = Some (i1, a, c1) /\ f a c1 = Some (i2, b, c2) /\ is2 = i1 ++ i2.
Proof.
  unfold gbind. destruct (m c) as [[[i1 a] c1]|]; [|discriminate].
  destruct (f a c1) as [[[i2 b'] c2']|] eqn:E; [|discriminate].
  intros H. inversion H; subst. exists i1, a, c1, i2. auto.
Qed.
Lemma block_some {I C A} (m : gen I C A) c i a c' :
  block m c = Some (i, a, c') -> exists i1 a1, m c = Some (i1, a1, c') /\ a = (i1, a1) /\ i = [].
Proof.
  unfold block. destruct (m c) as [[[i1 a1] c1]|]; [|discriminate].
  intros H. inversion H; subst. eauto.
Qed.

(** coder/mod.rs:16-21 Target. *)
Inductive target := TDirect | TStream (r : nat) | TBuf (r : nat).
(** The Rust variable a target denotes ([reader]/[writer] or a register):
    compiler/decoder.rs:5-14, compiler/encoder.rs:7-16. *)
Definition key (t : target) : option nat :=
  match t with TDirect => None | TStream r => Some r | TBuf r => Some r end.
Definition key_eqb (a b : option nat) : bool :=
  match a, b with
  | None, None => true
  | Some x, Some y => Nat.eqb x y
  | _, _ => false
  end.
