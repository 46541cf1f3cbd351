(** C56: for which accepted declarations the code generators produce code instead of panicking (coder/decode, coder/encode). *)
From Verif Require Import Base Scalar EnumBits Expr Asg Gen Decode Encode Spec EncWf World GenSpec GenFacts.
From Verif Require Import Tokens Ast Parse Front Program FrontFacts P_Types PreludeNames ElabSpec ElabProgram P_Program Lower P_Lengths P_Pipeline GenFront.
Open Scope string_scope. Open Scope Z_scope. Open Scope list_scope.

(** A declaration of an accepted text: [d] is what the code generators get for the type [x] declared in it. *)
Definition accepted_type en n rs k chk m (text : list Z) (p : Front.prog) (x : name) (d : decl) : Prop :=
  exists a args f i fd, parse text = Ok a /\ from_ast en n rs k a = Ok p /\ Forall clean_decl a /\ In (DType x args f) a /\
    mget x (p_types p) = Some i /\ fget p i = Some fd /\ lower_decl chk p m fd = Some d.
Lemma accepted_shape en n rs k chk m text p x d : accepted_type en n rs k chk m text p x d -> decl_shape d = true.
Proof.
  intros (a & args & f & i & fd & _ & H & C & Hin & Ei & Ef & L). apply accepted in H as (_ & _ & D & _); [|exact C]. rewrite Forall_forall in D. specialize (D _ Hin). cbn [declared] in D. eapply type_shape; eassumption.
Qed.

(** Decoders: code is produced exactly if no condition sits on a container without a value and no conditional tagged container has only conditional variants. *)
Lemma decoders_generated en n rs k chk m text p x d q rf : accepted_type en n rs k chk m text p x d -> (dec_code q rf d <> None <-> decl_conds_ok d = true).
Proof. intros H. apply dec_total. eapply accepted_shape, H. Qed.
Theorem C56_decoder_generated : forall en n rs k chk m text p x d q rf, accepted_type en n rs k chk m text p x d -> (dec_code q rf d <> None <-> decl_conds_ok d = true).
Proof. exact decoders_generated. Qed.
Print Assumptions C56_decoder_generated.

(** Encoders: code is produced if every blen in a container names a later container of it that has a declared length.
    Partial: this is enough but not needed; blen of an earlier container also works if a field before that container asks for its length too. *)
Lemma encoders_generated en n rs k chk m text p x d q rf : accepted_type en n rs k chk m text p x d -> decl_blens_ok d = true -> enc_code q rf d <> None.
Proof. intros H. apply enc_total. eapply accepted_shape, H. Qed.
Theorem C56_encoder_generated_partial : forall en n rs k chk m text p x d q rf, accepted_type en n rs k chk m text p x d -> decl_blens_ok d = true -> enc_code q rf d <> None.
Proof. exact encoders_generated. Qed.
Print Assumptions C56_encoder_generated_partial.

(** In particular without blen, whatever the nesting, conditions, transforms and arrays. *)
Lemma no_blen_generated en n rs k chk m text p x d q rf : accepted_type en n rs k chk m text p x d -> no_blens (d_ty d) = true -> enc_code q rf d <> None.
Proof.
  intros H B. eapply encoders_generated; [exact H|]. apply no_blens_ok in B. unfold decl_blens_ok. destruct (d_ty d) as [| | | | | | | | |len [] items]; try exact B. cbn [blens_ok] in B. apply andb_prop in B as [_ B]. exact B.
Qed.
Theorem C56_encoder_without_blen : forall en n rs k chk m text p x d q rf, accepted_type en n rs k chk m text p x d -> no_blens (d_ty d) = true -> enc_code q rf d <> None.
Proof. exact no_blen_generated. Qed.
Print Assumptions C56_encoder_without_blen.

(** The sample's types meet the hypotheses: Packet with blen, Msg a tagged container. *)
Definition meets_type (x : name) (a : aprogram) (p : Front.prog) (f : decl -> bool) : bool :=
  match find (fun d => match d with DType y _ _ => name_eqb y x | _ => false end) a, mget x (p_types p) with
  | Some _, Some i => match fget p i with
    | Some fd => match lower_decl true p 30 fd with Some d => f d | _ => false end
    | None => false end
  | _, _ => false
  end.
Lemma meets_type_spec en n rs k text x a p f : parse text = Ok a -> from_ast en n rs k a = Ok p -> Forall clean_decl a -> meets_type x a p f = true -> exists d, accepted_type en n rs k true 30 text p x d /\ f d = true.
Proof.
  intros Hp Ha Hc. unfold meets_type. destruct (find _ a) as [y|] eqn:F; [|discriminate]. apply find_some in F as [Hin Hy]. destruct y as [y args af| | |]; try discriminate Hy. apply name_eqb_eq in Hy. subst y.
  destruct (mget x (p_types p)) as [i|] eqn:Ei; [|discriminate]. destruct (fget p i) as [fd|] eqn:Ef; [|discriminate]. destruct (lower_decl true p 30 fd) as [d|] eqn:El; [|discriminate]. intros H. exists d. split; [|exact H]. exists a, args, af, i, fd. auto 10.
Qed.
Lemma sample_from : from_ast string_env 30 sample_resolver 2 sample_ast = Ok sample_prog. Proof. vm_compute. reflexivity. Qed.
Lemma sample_clean : Forall clean_decl sample_ast. Proof. pose proof sample_ast_clean as C. rewrite sample_parses in C. exact C. Qed.
Example C56_decoder_nonvacuous : exists d, accepted_type string_env 30 sample_resolver 2 true 30 (bs sample_text) sample_prog (bs "Msg") d /\ decl_conds_ok d && no_blens (d_ty d) = true.
Proof. apply (meets_type_spec _ _ _ _ _ _ _ _ _ sample_parses sample_from sample_clean). vm_compute. reflexivity. Qed.
Example C56_encoder_nonvacuous : exists d, accepted_type string_env 30 sample_resolver 2 true 30 (bs sample_text) sample_prog (bs "Packet") d /\ decl_conds_ok d && decl_blens_ok d && negb (no_blens (d_ty d)) = true.
Proof. apply (meets_type_spec _ _ _ _ _ _ _ _ _ sample_parses sample_from sample_clean). vm_compute. reflexivity. Qed.

(** The expected claim - every accepted text gets its code - is false. Whether decoder and encoder of type [x] of an accepted text are generated: *)
Definition generated (text x : string) : option (bool * bool) :=
  match compiled text with
  | Some l => match World.prog l x with Some d => Some (is_some (dec_code (World.prog l) 30 d), is_some (enc_code (World.prog l) 30 d)) | None => None end
  | None => None
  end.
(** A conditional container with only padding in it: the decoder generator panics. *)
Theorem C56_conditional_padding_refuted : ~ forall text x r, generated text x = Some r -> r = (true, true).
Proof. intros H. specialize (H "type T = container { a: u8, c: container { .pad: 3 } { a == 1 } };" "T" (false, true)). assert (E : (false, true) = (true, true)) by (apply H; vm_compute; reflexivity). discriminate E. Qed.
Print Assumptions C56_conditional_padding_refuted.
(** A conditional tagged container whose variants are all conditional: likewise. *)
Theorem C56_conditional_variants_refuted : ~ forall text x r, generated text x = Some r -> r = (true, true).
Proof. intros H. specialize (H "type T(k: u8) = container +tagged_enum { a: u8 { k == 1 }, b: u8 { k == 2 } } { k == 3 };" "T" (false, true)). assert (E : (false, true) = (true, true)) by (apply H; vm_compute; reflexivity). discriminate E. Qed.
Print Assumptions C56_conditional_variants_refuted.
(** blen of an earlier container, of one without declared length, of something else: the encoder generator panics. *)
Theorem C56_blen_refuted : forall t, In t ["type T = container { c: container [4] { x: u32 }, n: u64 = blen(c) };"; "type T = container { n: u64 = blen(c), c: container { x: u32 } };"; "type T = container { n: u64 = blen(c), c: u32 };"] ->
  generated t "T" = Some (true, false).
Proof. intros t [<-|[<-|[<-|[]]]]; vm_compute; reflexivity. Qed.
Print Assumptions C56_blen_refuted.
(** The sufficient condition is not necessary. *)
Theorem C56_blen_again_refuted : ~ forall text l d q, compiled text = Some l -> World.prog l "T" = Some d -> (enc_code q 30 d <> None <-> decl_blens_ok d = true).
Proof.
  intros H. destruct (compiled "type T = container { n: u64 = blen(c), c: container [n] { x: u8[..] }, m: u64 = blen(c) };") as [l|] eqn:E; [|vm_compute in E; discriminate E].
  destruct (World.prog l "T") as [d|] eqn:D; [|vm_compute in E; injection E as <-; vm_compute in D; discriminate D]. specialize (H _ l d (World.prog l) E D).
  vm_compute in E. injection E as <-. vm_compute in D. injection D as <-. assert (F : false = true) by (apply H; vm_compute; discriminate). discriminate F.
Qed.
Print Assumptions C56_blen_again_refuted.
