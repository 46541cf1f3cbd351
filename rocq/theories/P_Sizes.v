(** Property C62: how many bytes. *)
From Verif Require Import ScalarFacts ConstIntFacts PreludeFacts UtfFacts DecRef EncRef RtWf EnumBitsFacts RoundTrip Relax World Sample ValidSpec Valid Local CoderFacts P_Coder P_Lengths P_Safe Sizes SizeFacts.
From Coq Require Import Lia.
Open Scope string_scope. Open Scope Z_scope. Open Scope list_scope.

(** C62. Whatever the writer writes for a value, valid or not, has a number of bytes within the range computed from the declaration ([bounds], Sizes.v), for every depth [j] to which references are looked into. *)
Theorem C62_encoded_size : forall w p rf bf, world_sizes w bf -> compiles p rf ->
  forall j k n args v b, encode w p rf k n args v = Ok b -> within (bounds p rf bf j n) (Z.of_nat (List.length b)).
Proof.
  intros w p rf bf Hb Hc j k n args v b E. rewrite (encode_refines w p rf (proj2 Hc)) in E. bi E x Ex. destruct x as [b1 v1]. apply Ok_inj in E. subst b1. exact (sencode_within _ _ _ _ _ Hb _ _ _ _ _ _ _ Ex).
Qed.
Print Assumptions C62_encoded_size.
(** ... and so has what the reader takes from its input, whatever the input. *)
Theorem C62_decoded_size : forall w p rf bf, world_suffixing w -> world_sizes w bf -> compiles p rf ->
  forall j k n args l v rest, decode w p rf k n args l = Ok (v, rest) -> exists used, l = used ++ rest /\ within (bounds p rf bf j n) (Z.of_nat (List.length used)).
Proof.
  intros w p rf bf Hw Hb Hc j k n args l v rest E. destruct (decode_prefix w p rf Hw Hc k n args l v rest E) as (used & ->). exists used. split; [reflexivity|].
  rewrite (proj1 (decode_refines w p rf Hw (proj1 Hc) k n args _)) in E. destruct (sdecode_within w p rf bf Hw Hb j k n args _ _ _ E) as (m & L & B & _). rewrite len_app in L. replace (len used) with m by lia. exact B.
Qed.
Print Assumptions C62_decoded_size.
(** Fewer bytes than the declaration needs are never decoded to a value. *)
Theorem C62_too_short : forall w p rf bf, world_suffixing w -> world_sizes w bf -> compiles p rf ->
  forall j k n args l, Z.of_nat (List.length l) < fst (bounds p rf bf j n) -> forall v rest, decode w p rf k n args l <> Ok (v, rest).
Proof.
  intros w p rf bf Hw Hb Hc j k n args l H v rest E. destruct (C62_decoded_size w p rf bf Hw Hb Hc j k n args l v rest E) as (used & -> & B & _). rewrite len_app in H. lia.
Qed.
Print Assumptions C62_too_short.
(** Fixed layouts: every encoding has that length, every successful decode takes exactly that many bytes and leaves the rest. *)
Theorem C62_fixed_size : forall w p rf bf, world_suffixing w -> world_sizes w bf -> compiles p rf ->
  forall j n z, bounds p rf bf j n = exactly z ->
  (forall k args v b, encode w p rf k n args v = Ok b -> Z.of_nat (List.length b) = z) /\
  (forall k args l v rest, decode w p rf k n args l = Ok (v, rest) -> rest = skipn (Z.to_nat z) l /\ z <= Z.of_nat (List.length l)).
Proof.
  intros w p rf bf Hw Hb Hc j n z Hz. split.
  - intros k args v b E. pose proof (C62_encoded_size w p rf bf Hb Hc j k n args v b E) as B. rewrite Hz in B. apply within_exact_iff, B.
  - intros k args l v rest E. destruct (C62_decoded_size w p rf bf Hw Hb Hc j k n args l v rest E) as (used & -> & B). rewrite Hz in B. apply within_exact_iff in B. rewrite len_app. split; [|lia].
    rewrite skipn_app, skipn_all2 by lia. replace (_ - _)%nat with O by lia. reflexivity.
Qed.
Print Assumptions C62_fixed_size.

(** The prelude's types: varints have at least one byte and at most one for every 7 bits; strings are of any length. *)
Definition prelude_sizes (f : string) : range := match var_of f with Some s => (1, Some ((bits s + 6) / 7)) | None => anything end.
Lemma groups_short fuel : forall n v, 0 <= v < 128 ^ Z.of_nat (S n) -> (List.length (groups fuel v) <= S n)%nat.
Proof.
  induction fuel as [|fuel IH]; intros n v H; cbn [groups]; [cbn; lia|]. destruct (Z.ltb_spec v 128); [cbn; lia|]. cbn [List.length]. destruct n as [|n]; [change (128 ^ Z.of_nat 1) with 128 in H; lia|].
  enough (List.length (groups fuel (v / 128)) <= S n)%nat by lia. apply IH. split; [apply Z.div_pos; lia|]. apply Z.div_lt_upper_bound; [lia|]. rewrite <- Z.pow_succ_r by lia. rewrite <- Nat2Z.inj_succ. apply H.
Qed.
Lemma groups_some fuel v : (0 < List.length (groups (S fuel) v))%nat.
Proof. cbn [groups]. destruct (v <? 128); cbn; lia. Qed.
Lemma varint_span s : forall fuel i o l z r, (i <= varint_end s)%nat -> varint_read fuel s i o l = Ok (z, r) -> exists n, List.length l = (n + List.length r)%nat /\ (1 <= n)%nat /\ (n + i <= S (varint_end s))%nat.
Proof.
  induction fuel as [|fuel IH]; intros i o l z r Hi H; cbn [varint_read] in H; [discriminate|]. bi H x Ex. destruct x as [b r1]. apply read_exact_ok in Ex as (-> & Eb). rewrite app_length, Eb. cbn zeta in H.
  destruct (Nat.ltb_spec (varint_end s) (S i)).
  - apply Ok_inj in H. injection H as <- <-. exists 1%nat. lia.
  - destruct (_ =? 128).
    + apply IH in H as (n & L & A & B); [|lia]. exists (S n). lia.
    + apply Ok_inj in H. injection H as <- <-. exists 1%nat. lia.
Qed.
Theorem prelude_world_sizes : world_sizes prelude_world prelude_sizes.
Proof.
  split; unfold prelude_sizes, takes_within, gives_within.
  - intros f vs l v rest E. cbn [prelude_world w_fdec] in E. pose proof (proj1 prelude_world_suffixing f vs l v rest E) as (j & Hj & ->). rewrite skipn_length. 
    destruct (var_of f) as [s|] eqn:V; [|exists (Z.of_nat j); split; [lia|]; split; [apply within_any; lia|lia]].
    unfold pw_fdec in E. rewrite V in E. bi E x Ex. destruct x as [z r]. apply Ok_inj in E. injection E as _ ->. apply varint_span in Ex as (n & L & A & B); [|lia]. rewrite skipn_length in L. exists (Z.of_nat n). split; [lia|]. split; [|lia].
    split; cbn [fst snd]; [lia|]. transitivity (Z.of_nat (S (varint_end s))); [lia|]. destruct s; vm_compute; discriminate.
  - intros f vs v b E. cbn [prelude_world w_fenc] in E. destruct (var_of f) as [s|] eqn:V; [|apply within_any; lia]. unfold pw_fenc in E. rewrite V in E. destruct v; try discriminate E. destruct (scalar_eqb s _); [|discriminate E].
    rewrite varint_encode_groups in E. apply Ok_inj in E. subst b. split; cbn [fst snd]; [match goal with |- context [groups 32 ?q] => pose proof (groups_some 31 q) end; lia|].
    match goal with |- context [groups 32 (?z mod 2 ^ bits s)] => pose proof (Z.mod_pos_bound z (2 ^ bits s) (pow_bits_pos s)) as B; generalize dependent (z mod 2 ^ bits s) end. intros q B.
    assert (G : 2 ^ bits s <= 128 ^ Z.of_nat (S (Z.to_nat ((bits s + 6) / 7 - 1))) /\ Z.of_nat (S (Z.to_nat ((bits s + 6) / 7 - 1))) = (bits s + 6) / 7) by (destruct s; (split; [vm_compute; discriminate|vm_compute; reflexivity])). destruct G as [G1 G2].
    pose proof (groups_short 32 (Z.to_nat ((bits s + 6) / 7 - 1)) q ltac:(lia)). lia.
Qed.
Theorem C62_prelude_sizes : forall l rf mk, prog_ok l rf mk = true -> forall j k n args,
  (forall v b, encode prelude_world (prog l) rf k n args v = Ok b -> within (bounds (prog l) rf prelude_sizes j n) (Z.of_nat (List.length b))) /\
  (forall bytes v rest, decode prelude_world (prog l) rf k n args bytes = Ok (v, rest) -> exists used, bytes = used ++ rest /\ within (bounds (prog l) rf prelude_sizes j n) (Z.of_nat (List.length used))).
Proof.
  intros l rf mk H j k n args. destruct (prog_ok_compiles _ _ _ H) as [_ C]. split.
  - intros v b. exact (C62_encoded_size _ _ _ _ prelude_world_sizes C j k n args v b).
  - intros bytes v rest. exact (C62_decoded_size _ _ _ _ prelude_world_suffixing prelude_world_sizes C j k n args bytes v rest).
Qed.
Print Assumptions C62_prelude_sizes.

(** A fixed layout, one with a conditional field, a varint and a string, and a tagged choice; and the packet of Sample.v. *)
Definition sizes_text : string := "import_ffi utf8 as type; import_ffi v32 as type;
  type kind = enum u8 { a = 1, b, c = 7 };
  type flags = bitfield u16 { x = 1, y = 256 };
  type point = container { x: i16le, y: f64 };
  type header = container { kind: kind, flags: flags, ids: u32[4], .pad: 3, at: point[2], tail: container { ok: bool, z: u128 } };
  type entry = container { h: header, kind: kind, id: v32, opt: u64 { kind == kind::a } };
  type named = container { e: entry, name: utf8, more: u8[..] };
  type choice(k: u8) = container +tagged_enum { a: u16 { k == 1 }, b: header { k == 2 }, c: u8 };".
Example C62_nonvacuous :
  let l := program_of sizes_text in let r := bounds (prog l) 20 prelude_sizes 5 in
  prog_ok l 20 (prelude_marks ["named"]) = true /\
  r "kind" = exactly 1 /\ r "flags" = exactly 2 /\ r "point" = exactly 10 /\ r "header" = exactly 59 /\ r "entry" = (61, Some 73) /\ r "named" = (61, None) /\ r "choice" = (1, Some 59) /\
  bounds sample 20 prelude_sizes 5 "Packet" = (13, None) /\ (exists b, encode prelude_world sample 20 5 "Packet" [] packet = Ok b /\ List.length b = 35%nat) /\
  (forall b, (List.length b < 59)%nat -> forall k v rest, decode prelude_world (prog l) 20 k "header" [] b <> Ok (v, rest)) /\
  exists v, decode prelude_world (prog l) 20 9 "header" [] (repeat 1 62) = Ok (v, [1; 1; 1]).
Proof.
  cbv zeta. assert (O : prog_ok (program_of sizes_text) 20 (prelude_marks ["named"]) = true) by (vm_compute; reflexivity). split; [exact O|].
  assert (H : bounds (prog (program_of sizes_text)) 20 prelude_sizes 5 "header" = exactly 59) by (vm_compute; reflexivity).
  do 8 (split; [first [exact H|vm_compute; reflexivity]|]).
  split; [eexists; split; vm_compute; reflexivity|]. split.
  - intros b L k. refine (C62_too_short prelude_world _ 20 prelude_sizes prelude_world_suffixing prelude_world_sizes (proj2 (prog_ok_compiles _ _ _ O)) 5 k "header" [] b _). rewrite H. cbn [fst exactly]. lia.
  - eexists. vm_compute. reflexivity.
Qed.
Print Assumptions C62_nonvacuous.

(** With sizes, the valid values of C31 include arrays of records up to the end of the input. *)
Definition log_text : string := "type rec = container { a: u8, b: u16 }; type log = container { n: u8, l: rec[..] };".
Definition log_rec (a b : Z) : val := VStruct "rec" [("a", VInt U8 a); ("b", VInt U16 b)].
Definition log_val (n : Z) (l : list (Z * Z)) : val := VStruct "log" [("n", VInt U8 n); ("l", VArr (map (fun r => log_rec (fst r) (snd r)) l))].
Example C31_records_nonvacuous : prog_ok (program_of log_text) 20 (prelude_marks ["log"]) = true /\
  forall n l, 0 <= n < 256 -> Forall (fun r => 0 <= fst r < 256 /\ 0 <= snd r < 65536) l -> valid prelude_world (prog (program_of log_text)) 20 prelude_good "log" [] (log_val n l).
Proof.
  split; [vm_compute; reflexivity|]. intros n l Hn Hl. set (p := prog (program_of log_text)).
  assert (R8 : forall z, 0 <= z < 256 -> in_range U8 z = true) by (intros z Hz; unfold in_range, min_of, max_of; apply andb_true_iff; cbn; lia).
  assert (R16 : forall z, 0 <= z < 65536 -> in_range U16 z = true) by (intros z Hz; unfold in_range, min_of, max_of; apply andb_true_iff; cbn; lia).
  assert (FR : forall a b, 0 <= a < 256 -> 0 <= b < 65536 -> has_decl prelude_world p 20 prelude_good 1 "rec" [] (log_rec a b)).
  { intros a b Ha Hb. cbn [has_decl]. do 2 eexists. split; [vm_compute; reflexivity|]. split; [reflexivity|]. split; [constructor|]. cbn [d_ty d_attr fa_name].
    eexists. split; [reflexivity|]. split; [exact I|]. split; [vm_compute; reflexivity|]. split; [vm_compute; repeat constructor; cbn; intuition discriminate|]. split; [reflexivity|]. split; [cbn; intuition discriminate|].
    intros x t [H|[H|[]]]; injection H as <- <-; unfold has_field; cbn [fa_pad fa_cond fa_calc fa_name fa_xs].
    - exists (VInt U8 a). split; [reflexivity|]. split; [|split; [constructor|exact I]]. exists a. split; [reflexivity|apply R8; exact Ha].
    - exists (VInt U16 b). split; [reflexivity|]. split; [|split; [constructor|exact I]]. exists b. split; [reflexivity|apply R16; exact Hb]. }
  exists 2%nat. cbn [has_decl]. do 2 eexists. split; [vm_compute; reflexivity|]. split; [reflexivity|]. split; [constructor|]. cbn [d_ty d_attr fa_name].
  eexists. split; [reflexivity|]. split; [exact I|]. split; [vm_compute; reflexivity|]. split; [vm_compute; repeat constructor; cbn; intuition discriminate|]. split; [reflexivity|]. split; [cbn; intuition discriminate|].
  intros x t [H|[H|[]]]; injection H as <- <-; unfold has_field; cbn [fa_pad fa_cond fa_calc fa_name fa_xs].
  - exists (VInt U8 n). split; [reflexivity|]. split; [|split; [constructor|exact I]]. exists n. split; [reflexivity|apply R8; exact Hn].
  - eexists. split; [reflexivity|]. split; [|split; [constructor|exact I]]. cbn [has_ty]. eexists. split; [reflexivity|]. split; [discriminate|]. split.
    + intros _. exists prelude_sizes, 1%nat. split; [exact prelude_world_sizes|]. vm_compute. discriminate.
    + split; [vm_compute; reflexivity|]. apply Forall_forall. intros v Hv. apply in_map_iff in Hv as ((a, b) & <- & Hr). rewrite Forall_forall in Hl. destruct (Hl _ Hr) as (Ha & Hb).
      exists []. split; [reflexivity|]. assert (F : foreign_of p "rec" = None) by (vm_compute; reflexivity). rewrite F. exact (FR a b Ha Hb).
Qed.
Print Assumptions C31_records_nonvacuous.

(** And containers of declared length, of a nested container and of a whole type. *)
Definition framed_text : string := "type framed = container [12u64] { key: u8, n: u32, box: container [n] { a: u16, b: u8 }, tail: u32 };".
Definition framed_val (key a b tail : Z) : val := VStruct "framed" [("key", VInt U8 key); ("n", VInt U32 3); ("a", VInt U16 a); ("b", VInt U8 b); ("tail", VInt U32 tail)].
Example C31_lengths_nonvacuous : prog_ok (program_of framed_text) 20 (prelude_marks []) = true /\
  forall key a b tail, in_range U8 key = true -> in_range U16 a = true -> in_range U8 b = true -> in_range U32 tail = true ->
    valid prelude_world (prog (program_of framed_text)) 20 prelude_good "framed" [] (framed_val key a b tail).
Proof.
  split; [vm_compute; reflexivity|]. intros key a b tail Hk Ha Hb Ht. set (p := prog (program_of framed_text)).
  exists 1%nat. cbn [has_decl]. do 2 eexists. split; [vm_compute; reflexivity|]. split; [reflexivity|]. split; [constructor|]. cbn [d_ty d_attr fa_name].
  eexists. split; [reflexivity|]. split.
  { eexists U64, 12, prelude_sizes, O. split; [reflexivity|]. split; [split; [discriminate|reflexivity]|]. split; [exact prelude_world_sizes|reflexivity]. }
  split; [vm_compute; reflexivity|]. split; [vm_compute; repeat constructor; cbn; intuition discriminate|]. split; [reflexivity|]. split.
  { cbn -[fits_length]. repeat (split; try discriminate). { constructor. } eexists U64, 3, prelude_sizes, O. split; [reflexivity|]. split; [split; [discriminate|reflexivity]|]. split; [exact prelude_world_sizes|reflexivity]. }
  intros x t [H|[H|[H|[H|[H|[]]]]]]; injection H as <- <-; unfold has_field; cbn [fa_pad fa_cond fa_calc fa_name fa_xs]; (eexists; split; [reflexivity|]; split; [|split; [constructor|exact I]]; eexists; split; [reflexivity|]); first [assumption|reflexivity].
Qed.
Print Assumptions C31_lengths_nonvacuous.
