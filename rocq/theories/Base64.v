(** The base64 transform (prelude/base64.rs:5-35).  The project emits [base64::write::EncoderWriter::new(w, base64::STANDARD)] and
    [base64::read::DecoderReader::new(r, base64::STANDARD)]; the base64 crate is a dependency of the generated code (its version is the user's choice; the constant
    [STANDARD] exists up to 0.13 and is used there as a configuration).  What is modelled here is that crate's documented behaviour: the standard alphabet, padding on
    output, a writer that keeps up to two bytes back until it is finished (when dropped), and a reader that decodes its input to the end.  Whether missing padding is
    accepted on input differs between versions: [strict] is a parameter, and everything is proved for both. *)
From Verif Require Import Base Scalar Expr Asg PreludeFacts Decode World.
Open Scope string_scope. Open Scope Z_scope. Open Scope list_scope.

(** The standard alphabet. *)
Definition b64_char (v : Z) : Z :=
  if v <? 26 then 65 + v else if v <? 52 then 71 + v else if v <? 62 then v - 4 else if v =? 62 then 43 else 47.
Definition b64_value (c : Z) : option Z :=
  if (65 <=? c) && (c <=? 90) then Some (c - 65)
  else if (97 <=? c) && (c <=? 122) then Some (c - 71)
  else if (48 <=? c) && (c <=? 57) then Some (c + 4)
  else if c =? 43 then Some 62 else if c =? 47 then Some 63 else None.
Definition pad_char : Z := 61.

(** base64.rs:31-33: whole groups of three bytes, then the last one or two with padding. *)
Fixpoint b64_encode (l : list Z) : list Z :=
  match l with
  | a :: b :: c :: r =>
      b64_char (a / 4) :: b64_char (a mod 4 * 16 + b / 16) :: b64_char (b mod 16 * 4 + c / 64) :: b64_char (c mod 64) :: b64_encode r
  | [a; b] => [b64_char (a / 4); b64_char (a mod 4 * 16 + b / 16); b64_char (b mod 16 * 4); pad_char]
  | [a] => [b64_char (a / 4); b64_char (a mod 4 * 16); pad_char; pad_char]
  | [] => []
  end.
(** The writer: what it has kept back, and a write. *)
Fixpoint b64_groups (l : list Z) : list Z * list Z :=
  match l with
  | a :: b :: c :: r =>
      let (out, kept) := b64_groups r in
      (b64_char (a / 4) :: b64_char (a mod 4 * 16 + b / 16) :: b64_char (b mod 16 * 4 + c / 64) :: b64_char (c mod 64) :: out, kept)
  | l => ([], l)
  end.
Definition b64_write (kept : list Z) (chunk : list Z) : list Z * list Z := b64_groups (kept ++ chunk).
Fixpoint b64_writes (kept : list Z) (chunks : list (list Z)) : list Z :=
  match chunks with
  | [] => b64_encode kept                                               (* finish *)
  | c :: cs => let (out, kept) := b64_write kept c in out ++ b64_writes kept cs
  end.

(** base64.rs:15-19. *)
Section Decode.
  Variable strict : bool.
  Fixpoint b64_decode (l : list Z) : option (list Z) :=
    match l with
    | [] => Some []
    | w :: x :: r =>
        match b64_value w, b64_value x with
        | Some w, Some x =>
            match r with
            | y :: z :: r =>
                match b64_value y, b64_value z with
                | Some y, Some z => match b64_decode r with Some d => Some (w * 4 + x / 16 :: x mod 16 * 16 + y / 4 :: y mod 4 * 64 + z :: d) | None => None end
                | Some y, None => if (z =? pad_char) && (y mod 4 =? 0) && match r with [] => true | _ => false end then Some [w * 4 + x / 16; x mod 16 * 16 + y / 4] else None
                | None, _ => if (y =? pad_char) && (z =? pad_char) && (x mod 16 =? 0) && match r with [] => true | _ => false end then Some [w * 4 + x / 16] else None
                end
            | [y] => match b64_value y with
                     | Some y => if negb strict && (y mod 4 =? 0) then Some [w * 4 + x / 16; x mod 16 * 16 + y / 4] else None
                     | None => None
                     end
            | [] => if negb strict && (x mod 16 =? 0) then Some [w * 4 + x / 16] else None
            end
        | _, _ => None
        end
    | _ => None
    end.

  (** The prelude's surroundings with the base64 transform: it takes no arguments (base64.rs:36-38) and reads to the end of its input. *)
  Definition b64_world : world := {|
    w_chk := true; w_fty := w_fty prelude_world; w_ufn := w_ufn prelude_world; w_fenc := pw_fenc; w_fdec := pw_fdec;
    w_xenc := fun x vs l => if String.eqb x "base64" then match vs with [] => Ok (b64_encode l) | _ => Panic end else pw_xenc x vs l;
    w_xdec := fun x vs l => if String.eqb x "base64" then match vs with [] => match b64_decode l with Some d => Ok (d, []) | None => Err EDecode end | _ => Panic end else pw_xdec x vs l;
    w_fill := fun n => n |}.
End Decode.

(** ** Specification: RFC 4648, section 4, on bit strings *)
Fixpoint bits_of (n : nat) (v : Z) : list bool := match n with O => [] | S n => Z.odd (v / 2 ^ Z.of_nat n) :: bits_of n v end.
Definition alphabet : string := "ABCDEFGHIJKLMNOPQRSTUVWXYZabcdefghijklmnopqrstuvwxyz0123456789+/".
Definition letter (q : nat) : option Z := nth_error (map (fun c => Z.of_nat (Ascii.nat_of_ascii c)) (list_ascii_of_string alphabet)) q.
(** [s] is the base64 text of [l]: letters [q], then padding to a multiple of four; the letters' bits are the octets' bits and fewer than six zeros. *)
Definition rfc4648 (l s : list Z) : Prop :=
  exists q pad z, map Some s = map letter q ++ repeat (Some 61) pad /\ Forall (fun v => (v < 64)%nat) q /\
    flat_map (fun v => bits_of 6 (Z.of_nat v)) q = flat_map (bits_of 8) l ++ repeat false z /\
    (z < 6)%nat /\ (pad < 4)%nat /\ ((List.length q + pad) mod 4 = 0)%nat.
Definition octets (l : list Z) : Prop := Forall (fun b => 0 <= b < 256) l.
