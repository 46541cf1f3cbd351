(** Property C53: the base64 transform. *)
From Verif Require Import ScalarFacts ConstIntFacts PreludeFacts UtfFacts DecRef EncRef RtWf RoundTrip Reenc CoderFacts World Base64 Base64Facts ValidSpec Valid Examples ExampleFacts P_Coder P_Lengths P_Safe.
From Coq Require Import Lia.
Open Scope string_scope. Open Scope Z_scope. Open Scope list_scope.

(** C53. What the writer emits is the RFC 4648 text of the bytes, which is unique; however the bytes are split into writes; reading it gives the bytes back; and a reader that insists on padding
    accepts nothing else. *)
Theorem C53_rfc4648 : forall l, octets l -> rfc4648 l (b64_encode l) /\ forall s, rfc4648 l s -> s = b64_encode l.
Proof. exact (fun l O => conj (encode_rfc l O) (fun s H => rfc_unique l s (b64_encode l) H (encode_rfc l O))). Qed.
Print Assumptions C53_rfc4648.
Theorem C53_any_chunks : forall chunks, b64_writes [] chunks = b64_encode (concat chunks).
Proof. exact (fun chunks => writes_encode chunks []). Qed.
Print Assumptions C53_any_chunks.
Theorem C53_inverse : forall strict l, octets l -> b64_decode strict (b64_encode l) = Some l.
Proof. exact decode_encode. Qed.
Print Assumptions C53_inverse.
Theorem C53_only_encodings : forall s l, b64_decode true s = Some l -> octets l /\ s = b64_encode l.
Proof. exact (fun s l H => conj (proj1 (encode_decode s l H)) (eq_sym (proj2 (encode_decode s l H)))). Qed.
Print Assumptions C53_only_encodings.
Example C53_nonvacuous : octets [102; 111; 111; 98; 97] /\ b64_encode [102; 111; 111; 98; 97] = [90; 109; 57; 118; 89; 109; 69; 61] /\
  b64_writes [] [[102]; []; [111; 111; 98]; [97]] = [90; 109; 57; 118; 89; 109; 69; 61] /\ b64_decode false [90; 109; 57; 118; 89; 109; 69] = Some [102; 111; 111; 98; 97] /\ b64_decode true [90; 109; 57; 118; 89; 109; 69] = None.
Proof. split; [repeat constructor; lia|]. vm_compute. repeat split; reflexivity. Qed.

(** C53 in protocols: every program in the checked subset whose transforms are base64 (and which may use the prelude's foreign types) round-trips. *)
Theorem C53_protocols_roundtrip_partial : forall strict l rf tys, prog_ok l rf (prelude_marks tys) = true ->
  forall n args v, foreign_of (prog l) n = None -> valid (b64_world strict) (prog l) rf b64_good n args v ->
    exists k0 b, forall k rest, (k0 <= k)%nat -> (mem n tys = true -> rest = []) ->
      encode (b64_world strict) (prog l) rf k n args v = Ok b /\ decode (b64_world strict) (prog l) rf k n args (b ++ rest) = Ok (v, rest).
Proof. exact (fun strict l rf tys H => valid_roundtrip _ _ _ _ _ (b64_world_laws strict tys) (b64_world_suffixing strict) (proj1 (prog_ok_compiles _ _ _ H)) (proj2 (prog_ok_compiles _ _ _ H))). Qed.
Print Assumptions C53_protocols_roundtrip_partial.

(** A protocol, from its text: a version byte, then the rest of the message in base64. *)
Definition blob_text : string := "import_ffi base64 as transform; type blob = container { n: u8, data: u8[..] -> base64 };".
Definition blob_prog : list (string * decl) := Eval vm_compute in program_of blob_text.
Definition blob (n : Z) (data : list Z) : val := VStruct "blob" [("n", VInt U8 n); ("data", VArr (map (VInt U8) data))].
(** Its messages are valid values in the sense of the theorem above. *)
Lemma char_byte v : 0 <= v < 64 -> byte_ok (b64_char v).
Proof. intros H. unfold byte_ok, b64_char. destruct (Z.ltb_spec v 26); [lia|]. destruct (Z.ltb_spec v 52); [lia|]. destruct (Z.ltb_spec v 62); [lia|]. destruct (v =? 62); lia. Qed.
Lemma b64_bytes l : bytes_ok l -> bytes_ok (b64_encode l).
Proof.
  induction l as [|a|a b|a b c r IH] using list_ind3; intros O; [constructor| | |]; cbn [b64_encode]; unfold bytes_ok in O; rewrite ?Forall_cons_iff in O;
    unfold byte_ok in O; repeat (apply Forall_cons; [first [apply char_byte; dm|unfold byte_ok, pad_char; lia]|]); [constructor|constructor|apply IH, O].
Qed.
Example C53_valid_nonvacuous : forall strict n data, 0 <= n < 256 -> octets data -> valid (b64_world strict) (prog blob_prog) 20 b64_good "blob" [] (blob n data).
Proof.
  intros strict n data Hn Hd. exists 1%nat. cbn [has_decl]. do 2 eexists. split; [reflexivity|]. split; [reflexivity|]. split; [constructor|]. cbn [d_ty d_attr].
  eexists. split; [reflexivity|]. split; [exact I|]. split; [reflexivity|]. split; [cbn; repeat constructor; cbn; intuition discriminate|]. split; [reflexivity|]. split; [cbn; intuition discriminate|].
  intros a t [H|[H|[]]]; injection H as <- <-; unfold has_field; cbn [fa_pad fa_cond fa_calc fa_name fa_xs].
  - exists (VInt U8 n). split; [reflexivity|]. split; [exists n; split; [reflexivity|rng]|]. split; [constructor|exact I].
  - exists (VArr (map (VInt U8) data)). split; [reflexivity|]. split; [|split; [|exact I]].
    + cbn [has_ty]. eexists. split; [reflexivity|]. split; [discriminate|]. split; [discriminate|]. split; [reflexivity|]. apply Forall_forall. intros x Hx. apply in_map_iff in Hx as (z & <- & Hz).
      unfold octets in Hd. rewrite Forall_forall in Hd. specialize (Hd z Hz). exists z. split; [reflexivity|rng].
    + constructor; [|constructor]. cbn [x_cond]. exists []. split; [reflexivity|]. intros b Hb. exists (b64_encode b). split; [reflexivity|]. split; [apply b64_bytes, Hb|].
      cbn [b64_good g_x x_name]. apply forallb_forall. intros z Hz. unfold bytes_ok in Hb. rewrite Forall_forall in Hb. specialize (Hb z Hz). unfold byte_ok in Hb. lia.
Qed.
Print Assumptions C53_valid_nonvacuous.

Lemma blob_writes strict k n data : 0 <= n < 256 -> octets data ->
  sencode (b64_world strict) (prog blob_prog) 20 (Some b64_good) (S k) "blob" [] (blob n data) = Ok (n :: b64_encode data, blob n data).
Proof.
  intros Hn Hd. unfold blob. cbn [sencode]. remember (sencode (b64_world strict) (prog blob_prog) 20 (Some b64_good) k) as r0 eqn:Er0.
  assert (Ed : mapM (prim_enc (PScalar {| es_scalar := U8; es_endian := Big |})) (map (VInt U8) data) = Ok (map (Examples.be 1) data)).
  { apply (ints_write U8). eapply Forall_impl; [|exact Hd]. intros z Hz. cbn in Hz. rng. }
  assert (En : prim_enc (PScalar {| es_scalar := U8; es_endian := Big |}) (VInt U8 n) = Ok [n]).
  { rewrite prim_writes by rng. f_equal. change (Examples.be (size U8) n) with [n / 1 mod 256]. rewrite Z.div_1_r, Z.mod_small by lia. reflexivity. }
  assert (Ec : concat (map (Examples.be 1) data) = data) by exact (bytes_concat data Hd).
  assert (Eg : forallb (fun b => (0 <=? b) && (b <? 256)) data = true).
  { apply forallb_forall. intros b Hb. unfold octets in Hd. rewrite Forall_forall in Hd. specialize (Hd b Hb). lia. }
  remember (map (VInt U8) data) as dv eqn:Edv. remember (map (Examples.be 1) data) as db eqn:Edb.
  cbn -[scalar_bytes in_range Z.pow prim_enc b64_encode Z.of_nat List.length mapM fits forallb concat]. unfold se_prim. rewrite En. cbn [bind]. rewrite Ed. cbn [bind]. rewrite Ec, Eg.
  cbn -[b64_encode]. reflexivity.
Qed.
Lemma blob_ok : prog_ok blob_prog 20 (prelude_marks ["blob"]) = true. Proof. vm_compute. reflexivity. Qed.
Lemma blob_rt strict k n data : 0 <= n < 256 -> octets data ->
  encode (b64_world strict) (prog blob_prog) 20 (S k) "blob" [] (blob n data) = Ok (n :: b64_encode data) /\
  decode (b64_world strict) (prog blob_prog) 20 (S k) "blob" [] (n :: b64_encode data) = Ok (blob n data, []).
Proof.
  intros Hn Hd. destruct (prog_ok_compiles _ _ _ blob_ok) as [R C].
  destruct (C31_roundtrip_partial _ _ _ _ _ (b64_world_laws strict ["blob"]) (b64_world_suffixing strict) R C (S k) "blob" [] (blob n data) _ [] eq_refl (blob_writes strict k n data Hn Hd) (fun _ => eq_refl)) as [A B].
  rewrite app_nil_r in B. exact (conj A B).
Qed.
Theorem C53_message : compiled blob_text = Some blob_prog /\
  forall strict k n data, 0 <= n < 256 -> octets data ->
    encode (b64_world strict) (World.prog blob_prog) 20 (S k) "blob" [] (blob n data) = Ok (n :: b64_encode data) /\
    decode (b64_world strict) (World.prog blob_prog) 20 (S k) "blob" [] (n :: b64_encode data) = Ok (blob n data, []).
Proof. exact (conj eq_refl blob_rt). Qed.
Print Assumptions C53_message.

(** Anything after a base64 field is lost: the accepted protocol below writes three bytes in base64 and four bytes after them, and its own reader accepts no input whatsoever:
    the base64 reader takes the four bytes too, as more base64 or as an error.  (With include_async the generator itself panics on base64, base64.rs:12-14 and 28-30; not modelled.) *)
Definition seal_text : string := "import_ffi base64 as transform; type seal = container { data: u8[3] -> base64, tail: u8[4] };".
Definition seal_prog : list (string * decl) := Eval vm_compute in program_of seal_text.
Definition seal (data tail : list Z) : val := VStruct "seal" [("data", VArr (map (VInt U8) data)); ("tail", VArr (map (VInt U8) tail))].
Definition no_read {A} (r : res ioerr A) : Prop := forall x, r <> Ok x.
Lemma seal_lost strict k l : no_read (decode (b64_world strict) (prog seal_prog) 20 k "seal" [] l).
Proof.
  intros x H.
  assert (D : dec_ok (prog seal_prog) 20). { intros n d E. apply lookup_some_in in E. cbn [In seal_prog] in E. destruct E as [E|[]]. injection E as <- <-. split; [apply dec_wfb_spec; vm_compute; reflexivity|vm_compute; discriminate]. }
  rewrite (proj1 (decode_refines _ _ _ (b64_world_suffixing strict) D k "seal" [] l)) in H. destruct k as [|k]; [discriminate|]. cbn [sdecode] in H. remember (sdecode (b64_world strict) (prog seal_prog) 20 k) as r0 eqn:Er0. cbn -[b64_decode read_exact Z.of_nat List.length fits Z.pow] in H.
  destruct (b64_decode strict l) as [d|]; cbn -[read_exact Z.of_nat List.length fits Z.pow] in H; [|discriminate H].
  match type of H with bind (bind (bind (bind ?X _) _) _) _ = _ => destruct X as [[v l']| | |] end; cbn [bind] in H; try discriminate H.
Qed.
Theorem C53_following_fields_refuted : compiled seal_text = Some seal_prog /\
  forall strict, let w := b64_world strict in
    encode w (World.prog seal_prog) 20 3 "seal" [] (seal [1; 2; 3] [65; 65; 65; 65]) = Ok [65; 81; 73; 68; 65; 65; 65; 65] /\
    forall k l, no_read (decode w (World.prog seal_prog) 20 k "seal" [] l).
Proof. exact (conj eq_refl (fun strict => conj (match strict with true => eq_refl | false => eq_refl end) (seal_lost strict))). Qed.
Print Assumptions C53_following_fields_refuted.
