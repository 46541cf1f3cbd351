(** Properties C31-C42: the generated encoders and decoders.

    [encode w p rf k n args v] / [decode w p rf k n args l] run the instructions the
    compiler generates for type [n] of program [p] (Encode.v, Decode.v) in the
    surroundings [w] (foreign types, transforms, profile).  [k] bounds the depth of
    nested type references, [rf] the depth of type aliases.  [sdecode], [sencode],
    [sd_*] and [se_*] are the reference semantics (Spec.v), which knows nothing of
    registers, instructions and streams. *)
From Verif Require Import ScalarFacts DecRef EncRef RtWf EnumBitsFacts RoundTrip Relax World Sample ValidSpec Valid Local Reenc CoderFacts.
Open Scope string_scope. Open Scope Z_scope. Open Scope list_scope.

(** ** C31 *)

(** C31 (part). The instructions generated for a type do exactly what the reference
    semantics says, on every input, value and argument list - including errors, panics
    and non-termination. *)
Theorem C31_generated_code_meets_reference : forall w p rf, world_suffixing w -> compiles p rf ->
  forall k n args, (forall l, decode w p rf k n args l = sdecode w p rf k n args l) /\
    (forall v, encode w p rf k n args v = let! (b, _) := sencode w p rf None k n args v in Ok b).
Proof. exact (fun w p rf Hw Hp k n args => conj (fun l => proj1 (decode_refines w p rf Hw (proj1 Hp) k n args l)) (fun v => encode_refines w p rf (proj2 Hp) k n args v)). Qed.
Print Assumptions C31_generated_code_meets_reference.

(** C31, for every value the checked semantics accepts.  Missing from the full
    statement: values it refuses (see the _refuted theorems) and programs outside
    [rt_program] (more than one transform on a field, conditions inside conditional
    containers, ...: RtWf.v). *)
Theorem C31_roundtrip_partial : forall w g mk p rf, world_laws w g mk -> world_suffixing w -> rt_program p mk -> compiles p rf ->
  forall k n args v b rest, foreign_of p n = None ->
    sencode w p rf (Some g) k n args v = Ok (b, v) -> (mk_ty mk n = true -> rest = []) ->
    encode w p rf k n args v = Ok b /\ decode w p rf k n args (b ++ rest) = Ok (v, rest).
Proof. exact (fun w g mk p rf L S R C => encode_decode w g mk p rf L R S (proj1 C) (proj2 C)). Qed.
Print Assumptions C31_roundtrip_partial.

(** C31, with the values described declaratively (ValidSpec.v): every valid value
    encodes, and decodes to itself leaving what followed. *)
Lemma valid_roundtrip w g mk p rf : world_laws w g mk -> world_suffixing w -> rt_program p mk -> compiles p rf ->
  forall n args v, foreign_of p n = None -> valid w p rf g n args v ->
    exists k0 b, forall k rest, (k0 <= k)%nat -> (mk_ty mk n = true -> rest = []) ->
      encode w p rf k n args v = Ok b /\ decode w p rf k n args (b ++ rest) = Ok (v, rest).
Proof.
  intros L S R C n args v F (k0 & H). destruct (valid_sencode _ _ _ _ _ _ _ _ H) as (b & Hb). exists k0, b. intros k rest Hk Hr.
  eapply C31_roundtrip_partial; eauto. eapply sencode_more; eassumption.
Qed.
Theorem C31_valid_values_roundtrip_partial : forall w g mk p rf, world_laws w g mk -> world_suffixing w -> rt_program p mk -> compiles p rf ->
  forall n args v, foreign_of p n = None -> valid w p rf g n args v ->
    exists k0 b, forall k rest, (k0 <= k)%nat -> (mk_ty mk n = true -> rest = []) ->
      encode w p rf k n args v = Ok b /\ decode w p rf k n args (b ++ rest) = Ok (v, rest).
Proof. exact valid_roundtrip. Qed.
Print Assumptions C31_valid_values_roundtrip_partial.
(** Valid values of the sample program: a transformed rest array and both kinds of tagged variants; and a text that ends in CR LF. *)
Definition text_prog : program := prog [decl0 "Text" (TArr (be U8) (LTerm (EStr [13; 10])))].
Lemma xor_bytes k l : byte_ok k -> bytes_ok l -> bytes_ok (xor_all k l).
Proof.
  intros Hk. unfold xor_all. induction 1 as [|z l Hz _ IH]; cbn [map]; constructor; [|exact IH]. unfold byte_ok in *. clear -Hk Hz. rewrite Z.lxor_comm.
  assert (A : 0 <= Z.lxor z k) by (apply Z.lxor_nonneg; lia). split; [exact A|]. destruct (Z.eq_dec (Z.lxor z k) 0) as [->|N]; [lia|].
  apply Z.log2_lt_cancel. change (Z.log2 256) with 8. pose proof (Z.log2_lxor z k). assert (Z.log2 z <= 7) by (destruct (Z.eq_dec z 0) as [->|]; [cbn; lia|]; assert (Z.log2 z < 8); [apply Z.log2_lt_pow2; lia|lia]).
  assert (Z.log2 k <= 7) by (destruct (Z.eq_dec k 0) as [->|]; [cbn; lia|]; assert (Z.log2 k < 8); [apply Z.log2_lt_pow2; lia|lia]). lia.
Qed.
Example C31_valid_nonvacuous : let ok := valid prelude_world sample 20 prelude_good in
  ok "Sealed" [] (VStruct "Sealed" [("key", VInt U8 7); ("box", VArr [VInt U32 1; VInt U32 70000])]) /\
  ok "Msg" [VInt U8 1] (VVariant "Msg" "Small" (VInt U16 513)) /\
  ok "Msg" [VInt U8 2] (VVariantS "Msg" "Pair" [("x", VInt U8 3); ("y", VEnum kind_def (VNamed "Data"))]) /\
  valid prelude_world text_prog 20 prelude_good "Text" [] (VTup (u8s [65; 13; 13])).
Proof.
  cbv zeta. split; [|split; [|split]]; (exists 2%nat + exists 1%nat); cbn [has_decl]; (eexists; eexists; split; [vm_compute; reflexivity|]; split; [vm_compute; reflexivity|]; split; [constructor|]); cbn [d_ty d_attr].
  - eexists. split; [reflexivity|]. split; [exact I|]. split; [vm_compute; reflexivity|]. split; [vm_compute; repeat constructor; cbn; intuition discriminate|]. split; [reflexivity|]. split; [cbn; intuition discriminate|].
    intros a t [H|[H|[]]]; injection H as <- <-; unfold has_field; cbn [fa_pad fa_cond fa_calc fa_name fa_xs fld withx].
    + eexists. split; [reflexivity|]. split; [exists 7; split; reflexivity|]. split; [constructor|exact I].
    + eexists. split; [reflexivity|]. split; [|split; [|exact I]].
      * cbn [has_ty]. eexists. split; [reflexivity|]. split; [discriminate|]. split; [discriminate|]. split; [reflexivity|]. repeat constructor; cbn [has_ty]; eexists; split; reflexivity.
      * constructor; [|constructor]. cbn [x_cond]. exists [VInt U8 7]. split; [reflexivity|]. intros b Hb. exists (xor_all 7 b). split; [reflexivity|]. split; [apply xor_bytes; [unfold byte_ok; lia|exact Hb]|reflexivity].
  - eexists [], _, _, _. split; [reflexivity|]. split; [intros f []|]. split; [reflexivity|]. split; [reflexivity|]. split; [constructor|]. exists (VInt U16 513). split; [reflexivity|]. exists 513. split; reflexivity.
  - eexists [_], _, _, _. split; [reflexivity|]. split; [intros f [<-|[]]; eexists; split; reflexivity|]. split; [reflexivity|]. split; [reflexivity|]. split; [reflexivity|]. eexists. split; [reflexivity|]. split; [vm_compute; reflexivity|].
    split; [vm_compute; repeat constructor; cbn; intuition discriminate|]. split; [reflexivity|]. split; [cbn; intuition discriminate|]. intros a t [H|[H|[]]]; injection H as <- <-; unfold has_field; cbn [fa_pad fa_cond fa_calc fa_name fa_xs fld].
    + eexists. split; [reflexivity|]. split; [exists 3; split; reflexivity|]. split; [constructor|exact I].
    + eexists. split; [reflexivity|]. split; [|split; [constructor|exact I]]. cbn [has_ty]. exists []. split; [reflexivity|]. cbn [foreign_of].
      do 2 eexists. split; [vm_compute; reflexivity|]. split; [vm_compute; reflexivity|]. split; [constructor|]. cbn [d_ty]. do 2 eexists. split; [reflexivity|]. repeat split; reflexivity.
  - eexists. split; [reflexivity|]. cbn [has_ty]. exists (es U8 Big), [65; 13; 13], [13; 10]. split; [reflexivity|]. split; [reflexivity|]. split; [reflexivity|]. split; [reflexivity|].
    split; [repeat constructor; unfold byte_ok; lia|]. split; [repeat constructor; unfold byte_ok; lia|]. intros [|[|[|i]]] Hi; cbn; try discriminate. cbn in Hi. lia.
Qed.
Print Assumptions C31_valid_nonvacuous.

(** C31 for programs over the prelude's foreign types, where everything assumed of the
    program is one decidable check. *)
Lemma prog_ok_compiles l rf mk : prog_ok l rf mk = true -> rt_program (prog l) mk /\ compiles (prog l) rf.
Proof. intros H. destruct (prog_ok_spec _ _ _ H) as (A & B & C). split; [exact A|split; assumption]. Qed.
Theorem C31_prelude_roundtrip_partial : forall l rf tys, prog_ok l rf (prelude_marks tys) = true ->
  forall k n args v b rest, foreign_of (prog l) n = None ->
    sencode prelude_world (prog l) rf (Some prelude_good) k n args v = Ok (b, v) -> (mem n tys = true -> rest = []) ->
    encode prelude_world (prog l) rf k n args v = Ok b /\ decode prelude_world (prog l) rf k n args (b ++ rest) = Ok (v, rest).
Proof. exact (fun l rf tys H => C31_roundtrip_partial _ _ _ _ _ (prelude_world_laws tys) prelude_world_suffixing (proj1 (prog_ok_compiles _ _ _ H)) (proj2 (prog_ok_compiles _ _ _ H))). Qed.
Print Assumptions C31_prelude_roundtrip_partial.

Example C31_nonvacuous : exists b,
  sencode prelude_world sample 20 (Some prelude_good) 5 "Packet" [] packet = Ok (b, packet) /\
  encode prelude_world sample 20 5 "Packet" [] packet = Ok b /\
  decode prelude_world sample 20 5 "Packet" [] (b ++ [1; 2; 3]) = Ok (packet, [1; 2; 3]) /\ List.length b = 35%nat.
Proof.
  eexists. assert (H : sencode prelude_world sample 20 (Some prelude_good) 5 "Packet" [] packet =
    Ok ([7;1;1;2;0;0;1;255;255;0;1;17;112;0;0;0;0;0;0;12;195;169;65;0;172;2;9;10;255;255;2;0;5;6;0], packet)) by (vm_compute; reflexivity).
  split; [exact H|]. destruct (C31_prelude_roundtrip_partial _ _ _ sample_ok 5 "Packet" [] packet _ [1; 2; 3] eq_refl H) as (A & B); [discriminate|]. split; [exact A|]. split; [exact B|reflexivity].
Qed.

(** C31 as stated fails: a value stored in a field whose condition does not hold is
    silently dropped. *)
Definition opt_prog : list (string * decl) := [decl0 "T" (TCont None false [(fld "c", be U8); (cond "o" (EBin OEq (EField "c" ty_u8) (lit8 1)), be U8)])].
Theorem C31_unconditional_refuted : exists v v' b, encode prelude_world (prog opt_prog) 5 3 "T" [] v = Ok b /\
  decode prelude_world (prog opt_prog) 5 3 "T" [] b = Ok (v', []) /\ v <> v'.
Proof.
  exists (VStruct "T" [("c", VInt U8 0); ("o", VOpt (Some (VInt U8 5)))]). do 2 eexists. split; [vm_compute; reflexivity|]. split; [vm_compute; reflexivity|]. discriminate.
Qed.
Print Assumptions C31_unconditional_refuted.

(** ** C32 *)

(** C32. A successful decode leaves a suffix of its input: it has consumed a prefix. *)
Lemma decode_prefix w p rf : world_suffixing w -> compiles p rf -> forall k n args l v rest,
  decode w p rf k n args l = Ok (v, rest) -> exists used, l = used ++ rest.
Proof.
  intros Hw Hp k n args l v rest H. destruct (decode_refines w p rf Hw (proj1 Hp) k n args l) as (E & S). rewrite E in H. destruct (S _ _ _ H) as (j & Hj & ->). exists (firstn j l). symmetry. apply firstn_skipn.
Qed.
Theorem C32_decode_consumes_prefix : forall w p rf, world_suffixing w -> compiles p rf -> forall k n args l v rest,
  decode w p rf k n args l = Ok (v, rest) -> exists used, l = used ++ rest.
Proof. exact decode_prefix. Qed.
Print Assumptions C32_decode_consumes_prefix.

(** C32, for types in which every value has one representation ([one_rep_program],
    Reenc.v: no bools, pads, transforms, calculated fields, length constraints,
    conditional containers or terminated arrays): the decoded value encodes, to exactly
    the bytes consumed.  Overflow checks are on: without them an array length can wrap around
    (C34_wrapped_length_refuted). *)
Lemma decode_reencode w p rf ct cf : world_suffixing w -> compiles p rf -> one_rep_world cf w -> w_chk w = true -> one_rep_program p rf ct cf ->
  forall k n args l v rest, ct n = true -> bytes_ok l -> Z.of_nat (List.length l) < 2 ^ 64 ->
    decode w p rf k n args l = Ok (v, rest) -> exists b, encode w p rf k n args v = Ok b /\ l = b ++ rest.
Proof.
  intros Hw Hp O1 O3 O2 k n args l v rest Hn Hb Hl H. destruct (decode_refines w p rf Hw (proj1 Hp) k n args l) as (E & _). rewrite E in H.
  destruct (sdecode_sencode w p rf ct cf O1 O3 O2 k n args l v rest Hn Hb Hl H) as (b & Eb & El). exists b. rewrite (encode_refines w p rf (proj2 Hp)), Eb. auto.
Qed.
Theorem C32_reencode_partial : forall w p rf ct cf, world_suffixing w -> compiles p rf -> one_rep_world cf w -> w_chk w = true -> one_rep_program p rf ct cf ->
  forall k n args l v rest, ct n = true -> bytes_ok l -> Z.of_nat (List.length l) < 2 ^ 64 ->
    decode w p rf k n args l = Ok (v, rest) -> exists b, encode w p rf k n args v = Ok b /\ l = b ++ rest.
Proof. exact decode_reencode. Qed.
Print Assumptions C32_reencode_partial.

(** The class is not empty: nested containers, enums, bitfields, conditional fields,
    arrays, references with arguments and a tagged enum. *)
Definition canon_prog : list (string * decl) :=
  [ decl0 "Kind" (TEnum kind_def); decl0 "Flags" (TBits flags_def);
    declp "Item" [{| pm_name := "n"; pm_default := None |}] (TCont None false [(fld "id", le I32); (fld "raw", TArr (be U8) (LFixed (EInput "n" ty_u8)))]);
    declp "Msg" [{| pm_name := "tag"; pm_default := None |}]
      (TCont None true
        [ (cond "Small" (EBin OEq (EInput "tag" ty_u8) (lit8 1)), be U16);
          (cond "Pair" (EBin OEq (EInput "tag" ty_u8) (lit8 2)), TCont None false [(fld "x", be U8); (fld "y", TRef "Kind" [])]);
          (fld "Rest", TArr (be U8) LRest) ]);
    decl0 "Main" (TCont None false
      [ (fld "kind", TRef "Kind" []); (fld "n", be U8);
        (fld "sub", TCont None false [(fld "flags", TRef "Flags" []); (cond "opt" (EBin OEq (EField "n" ty_u8) (lit8 2)), be U16)]);
        (fld "items", TArr (TRef "Item" [lit8 2]) (LFixed (ECast (EField "n" ty_u8) ty_u64)));
        (fld "msg", TRef "Msg" [EField "n" ty_u8]) ]) ].
Lemma canon_one_rep : one_rep_program (prog canon_prog) 9 (fun _ => true) (fun _ => false).
Proof. intros n d H _. apply lookup_some_in in H. cbn [In canon_prog decl0 declp] in H. repeat (destruct H as [H|H]; [injection H as <- <-; vm_compute; reflexivity|]). contradiction. Qed.
Example C32_nonvacuous : compiles (prog canon_prog) 9 /\ exists v b, decode prelude_world (prog canon_prog) 9 5 "Main" [] [9; 2; 0; 1; 1; 2;  1; 0; 0; 0; 7; 8;  2; 0; 0; 0; 7; 8;  5; 7;  77] = Ok (v, [77])
  /\ encode prelude_world (prog canon_prog) 9 5 "Main" [] v = Ok b /\ List.length b = 20%nat.
Proof.
  assert (C : prog_ok canon_prog 9 (prelude_marks ["Msg"; "Main"]) = true) by (vm_compute; reflexivity). apply prog_ok_compiles in C as (_ & C). split; [exact C|].
  do 2 eexists. split; [vm_compute; reflexivity|]. split; [vm_compute; reflexivity|reflexivity].
Qed.

(** ** C33 *)

(** C33, for self-delimiting types ([local_program], Local.v: no [..] or terminated
    arrays, no foreign types or transforms outside [lf], [lx]): if [l] is exactly what
    the type needs, every proper prefix of it is an unexpected-end-of-input error. *)
Lemma truncated w p rf lt lf lx : world_suffixing w -> compiles p rf -> local_world lf lx w -> local_program p lt lf lx ->
  forall k n args l v cut, lt n = true -> decode w p rf k n args l = Ok (v, []) -> (exists tail, tail <> [] /\ l = cut ++ tail) ->
    decode w p rf k n args cut = Err EEof.
Proof.
  intros Hw Hp L1 L2 k n args l v cut Hn H (tail & Ht & ->). destruct (decode_refines w p rf Hw (proj1 Hp) k n args (cut ++ tail)) as (E & _). rewrite E in H.
  destruct (decode_refines w p rf Hw (proj1 Hp) k n args cut) as (-> & _). destruct (sdecode_local w p rf lt lf lx L1 L2 k n args Hn _ _ _ H) as (_ & T).
  destruct (T cut tail eq_refl) as [|(r1 & _ & E1)]; [assumption|]. symmetry in E1. apply app_eq_nil in E1 as (_ & E1). contradiction.
Qed.
Theorem C33_truncation_partial : forall w p rf lt lf lx, world_suffixing w -> compiles p rf -> local_world lf lx w -> local_program p lt lf lx ->
  forall k n args l v cut, lt n = true -> decode w p rf k n args l = Ok (v, []) -> (exists tail, tail <> [] /\ l = cut ++ tail) ->
    decode w p rf k n args cut = Err EEof.
Proof. exact truncated. Qed.
Print Assumptions C33_truncation_partial.

Definition local_prog : list (string * decl) :=
  [ decl0 "Kind" (TEnum kind_def);
    declp "Item" [{| pm_name := "n"; pm_default := None |}] (TCont None false [(fld "id", le I32); (fld "raw", TArr (be U8) (LFixed (EInput "n" ty_u8)))]);
    decl0 "Main" (TCont None false
      [ (fld "n", be U8); (fld "body", TCont (Some (ECast (EField "n" ty_u8) ty_u64)) false [(fld "kind", TRef "Kind" []); (fld "it", TRef "Item" [lit8 2])]);
        (cond "opt" (EBin OEq (EField "n" ty_u8) (lit8 7)), be U16); (pad "_pad0", TArr (be U8) (LFixed (lit 2))) ]) ].
Example C33_nonvacuous : compiles (prog local_prog) 9 /\ local_program (prog local_prog) (fun _ => true) (fun _ => false) (fun _ => false)
  /\ exists v, decode prelude_world (prog local_prog) 9 5 "Main" [] [7; 1; 1; 0; 0; 0; 5; 6; 1; 2; 0; 0] = Ok (v, []).
Proof.
  assert (C : prog_ok local_prog 9 (prelude_marks []) = true) by (vm_compute; reflexivity). apply prog_ok_compiles in C as (_ & C). split; [exact C|]. split.
  - intros n d H _. apply lookup_some_in in H. cbn [In local_prog decl0 declp] in H. repeat (destruct H as [H|H]; [injection H as <- <-; vm_compute; auto|]). contradiction.
  - eexists. vm_compute. reflexivity.
Qed.

(** C33 for programs over the prelude: the variable-length integers v8 .. v128 are self-delimiting too. *)
Definition is_var (f : string) : bool := match var_of f with Some _ => true | None => false end.
Lemma varint_local s : forall fuel i o, local (varint_read fuel s i o).
Proof.
  induction fuel as [|fuel IH]; intros i o; [apply local_never; intros ? ? ?; discriminate|]. cbn [varint_read].
  apply (local_bind (read_exact 1) (fun buf rest => if (varint_end s <? S i)%nat then Ok (Z.lor o (wrap s (wrap (unsigned_of s) (Z.shiftl (Z.land (wrap (unsigned_of s) (hd 0 buf)) 127) (Z.of_nat i * 7)))), rest)
    else if Z.land (hd 0 buf) 128 =? 128 then varint_read fuel s (S i) (Z.lor o (wrap s (wrap (unsigned_of s) (Z.shiftl (Z.land (wrap (unsigned_of s) (hd 0 buf)) 127) (Z.of_nat i * 7))))) rest
    else Ok (Z.lor o (wrap s (wrap (unsigned_of s) (Z.shiftl (Z.land (wrap (unsigned_of s) (hd 0 buf)) 127) (Z.of_nat i * 7)))), rest))); [apply local_read_exact|].
  intros buf. destruct (varint_end s <? S i)%nat; [apply local_ok|]. destruct (Z.land (hd 0 buf) 128 =? 128); [apply IH|apply local_ok].
Qed.
Lemma prelude_local : local_world is_var (fun _ => false) prelude_world.
Proof.
  split; [|intros x vs H; discriminate H]. intros f vs H. cbn. unfold is_var in H. unfold pw_fdec. destruct (var_of f) as [s|]; [|discriminate H].
  apply (local_bind (varint_decode s) (fun z l => Ok (VInt s z, l))); [apply varint_local|]. intros z. apply local_ok.
Qed.
Theorem C33_prelude_truncation_partial : forall l rf tys lt, prog_ok l rf (prelude_marks tys) = true -> local_program (prog l) lt is_var (fun _ => false) ->
  forall k n args b v cut, lt n = true -> decode prelude_world (prog l) rf k n args b = Ok (v, []) -> (exists tail, tail <> [] /\ b = cut ++ tail) ->
    decode prelude_world (prog l) rf k n args cut = Err EEof.
Proof. exact (fun l rf tys lt H L => truncated _ _ _ lt _ _ prelude_world_suffixing (proj2 (prog_ok_compiles _ _ _ H)) prelude_local L). Qed.
Print Assumptions C33_prelude_truncation_partial.
Example C33_prelude_nonvacuous : prog_ok sample_list 20 sample_marks = true /\ local_program sample (fun n => String.eqb n "Item") is_var (fun _ => false) /\
  decode prelude_world sample 20 5 "Item" [VInt U8 2] [172; 2; 9; 10] = Ok (VStruct "Item" [("id", VInt I32 300); ("raw", u8s [9; 10])], []).
Proof.
  split; [exact sample_ok|]. split; [|vm_compute; reflexivity]. intros n d H E. apply String.eqb_eq in E. subst n. vm_compute in H. injection H as <-. vm_compute. auto.
Qed.

(** C33 as stated fails: contents read to the end of a length-constrained container are
    not checked against its length, so a cut-off packet is accepted. *)
Definition short_prog : list (string * decl) :=
  [decl0 "T" (TCont None false [(fld "n", be U8); (fld "body", TCont (Some (ECast (EField "n" ty_u8) ty_u64)) false [(fld "data", TArr (be U8) LRest)])])].
Theorem C33_truncation_refuted : exists v v', decode prelude_world (prog short_prog) 9 3 "T" [] [4; 1; 2; 3; 4] = Ok (v, []) /\
  encode prelude_world (prog short_prog) 9 3 "T" [] v = Ok [4; 1; 2; 3; 4] /\
  decode prelude_world (prog short_prog) 9 3 "T" [] [4; 1; 2] = Ok (v', []).
Proof. do 2 eexists. repeat split; vm_compute; reflexivity. Qed.
Print Assumptions C33_truncation_refuted.
