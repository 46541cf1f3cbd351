(** Shared vocabulary: results with explicit panics, bytes and streams.

    Rust's [Result] stays data.  A panic (assert, unwrap on None, index out of
    bounds, arithmetic overflow in the debug profile, unimplemented!, ...) is
    the separate value [Panic]; a loop that never ends is the separate value
    [Hang]. *)
From Coq Require Export String.
From Coq Require Export List ZArith Lia Bool Arith.
Export ListNotations.
Open Scope Z_scope.

Inductive res (E A : Type) : Type :=
| Ok (a : A)
| Err (e : E)
| Panic
| Hang.
Arguments Ok {E A}. Arguments Err {E A}. Arguments Panic {E A}. Arguments Hang {E A}.

Definition bind {E A B} (r : res E A) (f : A -> res E B) : res E B :=
  match r with
  | Ok a => f a
  | Err e => Err e
  | Panic => Panic
  | Hang => Hang
  end.
Notation "'let!' x ':=' r 'in' k" := (bind r (fun x => k))
  (at level 200, x pattern, r at level 100, k at level 200).

Lemma Ok_inj {E A} (a b : A) : @Ok E A a = Ok b -> a = b.
Proof. intros H. injection H. auto. Qed.

Lemma Some_inj {A} (a b : A) : Some a = Some b -> a = b.
Proof. intros H. injection H. auto. Qed.

Definition of_opt {E A} (e : E) (o : option A) : res E A :=
  match o with Some a => Ok a | None => Err e end.

(** Bytes are integers in [0,256). *)
Definition byte_ok (b : Z) : Prop := 0 <= b < 256.
Definition bytes_ok (l : list Z) : Prop := Forall byte_ok l.

(** Errors of generated coders.  [std::io::Error] of kind UnexpectedEof from
    [read_exact]; [protospec::err_end_of_stream]-style and every other boxed
    error produced by the emitted code is [EDecode]. *)
Inductive ioerr := EEof | EDecode | EEncode.

(** [Read::read_exact] on an in-memory stream: n bytes or UnexpectedEof.
    (std semantics; used by every emitted primitive read.) *)
Definition read_exact (n : nat) (l : list Z) : res ioerr (list Z * list Z) :=
  if (n <=? length l)%nat then Ok (firstn n l, skipn n l) else Err EEof.

Lemma read_exact_app n a b : length a = n -> read_exact n (a ++ b) = Ok (a, b).
Proof.
  intros H. unfold read_exact. rewrite app_length.
  replace ((n <=? length a + length b)%nat) with true.
  2: { symmetry. apply Nat.leb_le. lia. }
  rewrite firstn_app, skipn_app, H, Nat.sub_diag. cbn [firstn skipn].
  rewrite firstn_all2, skipn_all2 by lia. rewrite app_nil_r. reflexivity.
Qed.

Lemma read_exact_ok n l a b : read_exact n l = Ok (a, b) -> l = a ++ b /\ length a = n.
Proof.
  unfold read_exact. destruct (Nat.leb_spec n (length l)) as [H|H]; intros E; [|discriminate].
  injection E as <- <-. split; [symmetry; apply firstn_skipn | apply firstn_length_le; lia].
Qed.

Lemma read_exact_short n l : (length l < n)%nat -> read_exact n l = Err EEof.
Proof. intros H. unfold read_exact. destruct (Nat.leb_spec n (length l)); [lia|reflexivity]. Qed.

Lemma read_exact_cases n l :
  (exists a b, read_exact n l = Ok (a,b) /\ l = a ++ b /\ length a = n)
  \/ (read_exact n l = Err EEof /\ (length l < n)%nat).
Proof.
  destruct (Nat.leb_spec n (length l)) as [H|H].
  - left. exists (firstn n l), (skipn n l). split.
    + unfold read_exact. destruct (Nat.leb_spec n (length l)); [reflexivity|lia].
    + split; [symmetry; apply firstn_skipn | apply firstn_length_le; lia].
  - right. split; [apply read_exact_short; assumption | assumption].
Qed.

Lemma firstn_app_exact {A} n (a b : list A) : length a = n -> firstn n (a ++ b) = a.
Proof.
  intros <-. rewrite firstn_app, Nat.sub_diag, firstn_all. cbn [firstn]. apply app_nil_r.
Qed.
Lemma skipn_app_exact {A} n (a b : list A) : length a = n -> skipn n (a ++ b) = b.
Proof.
  intros <-. rewrite skipn_app, Nat.sub_diag, skipn_all. reflexivity.
Qed.
