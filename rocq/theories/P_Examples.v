(** Properties C50, C51: the specifications that ship with the project.  Texts and wire formats: Examples.v. *)
From Verif Require Import ScalarFacts PreludeFacts UtfFacts DecRef EncRef RtWf RoundTrip Reenc CoderFacts World Data DataFacts Safe SafeFacts Examples.
From Verif Require Import P_Coder P_Data P_Lengths P_Safe ExampleFacts.
From Verif Require Import Tokens Parse Front Program PreludeNames P_Types.
Open Scope string_scope. Open Scope Z_scope. Open Scope list_scope.

(** C50. The corrected NBT specification is accepted, and its generated code writes and reads exactly the format: every tree without byte arrays is written as its wire form, and its
    wire form is read as that tree, whatever follows.  [depth x] is how deep the code recurses.  Missing: the specification as shipped, and byte arrays (see the refutations below). *)
Theorem C50_nbt_roundtrip_partial : compiled nbt_text = Some nbt_prog /\
  forall x, nbt_ok x -> no_bytes x -> forall k rest, (depth x <= k)%nat ->
    encode prelude_world (World.prog nbt_prog) 20 k "Payload" [tag_value (tag_of x)] (nbt_value x) = Ok (wire x) /\
    decode prelude_world (World.prog nbt_prog) 20 k "Payload" [tag_value (tag_of x)] (wire x ++ rest) = Ok (nbt_value x, rest).
Proof. exact (conj nbt_compiled (fun x O N k rest Hk => nbt_rt k "Payload" _ _ _ eq_refl (nbt_writes x O N k Hk) rest)). Qed.
Print Assumptions C50_nbt_roundtrip_partial.
(** C50, for whole files: what the viewer does (examples/nbtview/src/nbtview.rs:22-24 reads a [Compound] from the file): named tags up to the end of the file. *)
Theorem C50_nbt_file_partial : forall k l, (forall n x, In (n, x) l -> text_ok n /\ nbt_ok x /\ no_bytes x /\ (1 + depth x <= k)%nat) ->
  decode prelude_world (World.prog nbt_prog) 20 (S k) "Compound" [] (flat_map (fun nx => named (fst nx) (snd nx)) l) = Ok (VStruct "Compound" [("items", VArr (map (fun nx => named_value (fst nx) (snd nx)) l))], []).
Proof. exact nbt_file. Qed.
Print Assumptions C50_nbt_file_partial.
(** hello_world.nbt, from the format's description: a compound "hello world" with one string "name". *)
Definition hello : nbt := NCompound [([110; 97; 109; 101], NString [66; 97; 110; 97; 110; 114; 97; 109; 97])].
Definition hello_name : list Z := [104; 101; 108; 108; 111; 32; 119; 111; 114; 108; 100].
Example C50_nonvacuous : text_ok hello_name /\ nbt_ok hello /\ no_bytes hello /\ depth hello = 6%nat /\
  named hello_name hello = [10; 0; 11; 104; 101; 108; 108; 111; 32; 119; 111; 114; 108; 100; 8; 0; 4; 110; 97; 109; 101; 0; 9; 66; 97; 110; 97; 110; 114; 97; 109; 97; 0] /\
  nbt_ok (NList 9 [NList 0 []; NList 4 [NLong (-5); NLong 7]]) /\ wire (NList 4 [NLong (-5)]) = [4; 0; 0; 0; 1; 255; 255; 255; 255; 255; 255; 255; 251].
Proof.
  assert (U : forall l, forallb is_usv l = true -> Forall usv l) by (intros l H; apply Forall_forall; intros c Hc; rewrite forallb_forall in H; apply is_usv_spec; auto).
  unfold text_ok, signed. cbn [nbt_ok no_bytes hello fst snd]. unfold text_ok, signed.
  repeat match goal with |- _ /\ _ => split end; try exact I; try reflexivity; try (apply U; reflexivity); try (vm_compute; reflexivity); try (vm_compute; discriminate).
Qed.
Print Assumptions C50_nonvacuous.

(** C50 fails for the file as shipped: the parser rejects it (a comma is missing); with the comma it does not analyse, for [length] is no type; and with [i32] in its place it does not
    either, for signed counts are no array lengths. *)
Definition rejected (text : string) (e : aerr) : Prop := analyse prelude_env (with_prelude no_resolver) 30 2 (bs text) = Err e.
Definition parses (text : string) : bool := match parse (bs text) with Ok _ => true | _ => false end.
Theorem C50_nbt_shipped_refuted : nbt_shipped = nbt_with "" "length" "" /\
  parse (bs nbt_shipped) = Err (PUnexpected (TIdent (bs "value"))) /\
  (parses (nbt_with "," "length" " :> u64") = true /\ rejected (nbt_with "," "length" " :> u64") (XUnresolvedType (bs "length"))) /\
  (parses (nbt_with "," "i32" "") = true /\ rejected (nbt_with "," "i32" "") XUnexpectedType).
Proof. split; [reflexivity|]. split; [vm_compute; reflexivity|]. split; (split; vm_compute; reflexivity). Qed.
Print Assumptions C50_nbt_shipped_refuted.
(** C50 fails for byte arrays: nbt.pspec:34-46 has no variant for them, so every file with one is refused, whatever it holds. *)
Theorem C50_nbt_byte_arrays_refuted : (forall k l, decode prelude_world (World.prog nbt_prog) 20 (S k) "Payload" [tag_value (tag_of (NByteArray l))] (wire (NByteArray l)) = Err EDecode) /\
  nbt_ok (NByteArray [1; 2]) /\ wire (NByteArray [1; 2]) = [0; 0; 0; 2; 1; 2] /\
  decode prelude_world (World.prog nbt_prog) 20 9 "Compound" [] (named [97] (NByteArray [1; 2])) = Err EDecode.
Proof.
  split; [intros k l; apply no_byte_arrays|]. split; [split; [vm_compute; reflexivity|repeat constructor; vm_compute; intros; discriminate]|]. split; vm_compute; reflexivity.
Qed.
Print Assumptions C50_nbt_byte_arrays_refuted.
(** And the counts, cast to make the specification compile, are not checked: a count of -1 (the format lets an empty list have one) panics. *)
Theorem C50_nbt_negative_count_refuted : forall k,
  decode prelude_world (World.prog nbt_prog) 20 (S (S (S k))) "Payload" [tag_value 9] (0 :: Examples.be 4 (-1)) = Panic /\
  decode prelude_world (World.prog nbt_prog) 20 (S (S k)) "Payload" [tag_value 11] (Examples.be 4 (-1)) = Panic.
Proof. exact (fun k => conj (eq_trans (nbt_decode _ _ _ _) eq_refl) (eq_trans (nbt_decode _ _ _ _) eq_refl)). Qed.
Print Assumptions C50_nbt_negative_count_refuted.

(** C51. The PNG specification of the test suite: accepted; its generated code writes and reads exactly the sequences of an 8-byte signature and chunks; and its decoder returns on every
    byte string. *)
Theorem C51_png : compiled png_text = Some png_prog /\
  (forall k s cs, List.length s = 8%nat -> bytes_ok s -> Forall chunk_ok cs ->
    encode prelude_world (World.prog png_prog) 20 (S (S k)) "Png" [] (png_value s cs) = Ok (s ++ flat_map chunk_bytes cs) /\
    decode prelude_world (World.prog png_prog) 20 (S (S k)) "Png" [] (s ++ flat_map chunk_bytes cs) = Ok (png_value s cs, [])) /\
  (forall k l v rest, bytes_ok l -> Z.of_nat (List.length l) < 2 ^ 63 -> decode prelude_world (World.prog png_prog) 20 k "Png" [] l = Ok (v, rest) ->
    rest = [] /\ exists s cs, List.length s = 8%nat /\ bytes_ok s /\ Forall chunk_ok cs /\ v = png_value s cs /\ l = s ++ flat_map chunk_bytes cs) /\
  (forall l, Z.of_nat (List.length l) < 2 ^ 63 -> exists depth r, (forall k, (depth <= k)%nat -> decode prelude_world (World.prog png_prog) 20 k "Png" [] l = r) /\ r <> Panic /\ r <> Hang).
Proof. exact (conj png_compiled (conj png_rt (conj png_read png_returns))). Qed.
Print Assumptions C51_png.
(** C51. The packets of the test suite, whose body is counted in bytes before it is written: accepted; every packet whose body is below 4 GiB is written as its wire form and read back,
    whatever follows; and the decoder returns on every byte string. *)
Theorem C51_packet : compiled packet_text = Some packet_prog /\
  (forall k id c1 l c2 rest, byte_ok id -> byte_ok c1 -> byte_ok c2 -> Forall item_ok l -> Z.of_nat (List.length (body_bytes l)) < 2 ^ 32 ->
    encode prelude_world (World.prog packet_prog) 20 (S (S (S k))) "Packet" [] (packet_value id c1 l c2) = Ok (packet_bytes id c1 l c2) /\
    decode prelude_world (World.prog packet_prog) 20 (S (S (S k))) "Packet" [] (packet_bytes id c1 l c2 ++ rest) = Ok (packet_value id c1 l c2, rest)) /\
  (forall l, Z.of_nat (List.length l) < 2 ^ 63 -> exists depth r, (forall k, (depth <= k)%nat -> decode prelude_world (World.prog packet_prog) 20 k "Packet" [] l = r) /\ r <> Panic /\ r <> Hang).
Proof. exact (conj packet_compiled (conj packet_rt packet_returns)). Qed.
Print Assumptions C51_packet.
Example C51_nonvacuous : Forall chunk_ok [{| ch_type := 1229278788; ch_data := []; ch_crc := 2923585666 |}] /\
  chunk_bytes {| ch_type := 1229278788; ch_data := []; ch_crc := 2923585666 |} = [0; 0; 0; 0; 73; 69; 78; 68; 174; 66; 96; 130] /\
  Forall item_ok [ItString 5 [104; 105]; ItInteger 6 7] /\ packet_bytes 9 1 [ItString 5 [104; 105]; ItInteger 6 7] 2 = [9; 0; 0; 0; 16; 1; 0; 5; 0; 0; 0; 0; 2; 104; 105; 0; 6; 1; 0; 0; 0; 7; 2].
Proof.
  split; [constructor; [unfold chunk_ok; cbn [ch_type ch_data ch_crc List.length]; repeat split; try constructor; try lia|constructor]|]. split; [vm_compute; reflexivity|].
  split; [|vm_compute; reflexivity]. constructor; [|constructor; [|constructor]].
  - split; [lia|]. split; [repeat constructor; unfold usv; lia|vm_compute; reflexivity].
  - split; lia.
Qed.
Print Assumptions C51_nonvacuous.
