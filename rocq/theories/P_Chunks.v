(** C45: decoding does not depend on how the input arrives.  A reader of a stream with [n] bytes left shows [fill n] of them when asked for its buffer (a file, a socket:
    as much as the last read returned); it may be any function, as long as something is shown while anything is left.  [read_exact], [read_to_end] and the like gather
    whatever they need, so the portions only matter where the generated code looks at the buffer itself, which it does to find terminators.
    Simplification: all streams of one execution (the input, limited and transformed streams) share one such function. *)
From Verif Require Import Base Scalar EnumBits Expr Asg Gen Decode Encode Spec DecRef EncWf RtWf World Sample CoderFacts P_Coder P_Coder2 ChunkFacts.
From Coq Require Import Lia.
Open Scope string_scope. Open Scope Z_scope. Open Scope list_scope.

(** For any program, type, arguments and input: whatever the portions, decoding gives what it gives when all the input is there at once, or never ends. *)
Theorem C45_same_or_stuck_partial : forall w fill p rf k n args l, (forall i, (0 < i)%nat -> (0 < fill i <= i)%nat) ->
  let there := decode (with_fill w (fun i => i)) p rf k n args l in
  decode (with_fill w fill) p rf k n args l = there \/ decode (with_fill w fill) p rf k n args l = Hang.
Proof. intros w fill p rf k n args l H. destruct (decode_below w fill (fun i => i) p rf H k n args l) as [E|E]; [right|left]; exact E. Qed.
Print Assumptions C45_same_or_stuck_partial.

(** If terminators are single bytes (or there are none), it gives exactly that. *)
Lemma suffixing_fill w fill : world_suffixing w -> world_suffixing (with_fill w fill).
Proof. exact (fun H => H). Qed.
Lemma single_bytes w p rf : world_suffixing w -> compiles p rf -> (forall x d, p x = Some d -> terms_short 1 (d_ty d) = true) ->
  forall f g, (forall i, (0 < i)%nat -> (0 < f i)%nat) -> (forall i, (0 < i)%nat -> (0 < g i)%nat) ->
  forall k n args l, decode (with_fill w f) p rf k n args l = decode (with_fill w g) p rf k n args l.
Proof.
  intros Hw Hp T f g Hf Hg k n args l.
  rewrite (proj1 (C31_generated_code_meets_reference _ p rf (suffixing_fill w f Hw) Hp k n args) l), (proj1 (C31_generated_code_meets_reference _ p rf (suffixing_fill w g Hw) Hp k n args) l).
  apply (sdecode_same w f g 1 p rf); [lia| | |exact T]; intros [|i]; try lia; [specialize (Hf (S i))|specialize (Hg (S i))]; lia.
Qed.
Theorem C45_single_byte_terminators_partial : forall w p rf, world_suffixing w -> compiles p rf -> (forall x d, p x = Some d -> terms_short 1 (d_ty d) = true) ->
  forall f g, (forall i, (0 < i)%nat -> (0 < f i)%nat) -> (forall i, (0 < i)%nat -> (0 < g i)%nat) ->
  forall k n args l, decode (with_fill w f) p rf k n args l = decode (with_fill w g) p rf k n args l.
Proof. exact single_bytes. Qed.
Print Assumptions C45_single_byte_terminators_partial.

(** C45 as stated fails: with a terminator of two bytes and one byte at a time the decoder never ends, though all the bytes are there. *)
Theorem C45_split_terminator_refuted :
  decode (with_fill prelude_world (fun i => i)) (prog term_prog) 9 3 "T" [] [1; 2; 13; 10] = Ok (VTup (VArr [item16 258]), []) /\
  decode (with_fill prelude_world (fun i => Nat.min i 1)) (prog term_prog) 9 3 "T" [] [1; 2; 13; 10] = Hang.
Proof. split; vm_compute; reflexivity. Qed.
Print Assumptions C45_split_terminator_refuted.

(** The sample program has a terminated array, a length-limited container, transforms and references. *)
Example C45_nonvacuous : (forall x d, sample x = Some d -> terms_short 1 (d_ty d) = true) /\ world_suffixing prelude_world /\ compiles sample 20 /\
  exists b, encode prelude_world sample 20 5 "Packet" [] packet = Ok b /\ decode (with_fill prelude_world (fun i => Nat.min i 1)) sample 20 5 "Packet" [] (b ++ [7]) = Ok (packet, [7]).
Proof.
  split; [|split; [exact prelude_world_suffixing|split; [exact (proj2 (prog_ok_compiles _ _ _ sample_ok))|]]].
  - intros x d H. apply lookup_in_prog in H. assert (F : forallb (fun d => terms_short 1 (d_ty (snd d))) sample_list = true) by (vm_compute; reflexivity).
    rewrite forallb_forall in F. exact (F _ H).
  - assert (H : match encode prelude_world sample 20 5 "Packet" [] packet with Ok b => decode (with_fill prelude_world (fun i => Nat.min i 1)) sample 20 5 "Packet" [] (b ++ [7]) = Ok (packet, [7]) | _ => False end)
      by (vm_compute; reflexivity).
    destruct (encode prelude_world sample 20 5 "Packet" [] packet) as [b| | |]; try contradiction. exists b. split; [reflexivity|exact H].
Qed.
