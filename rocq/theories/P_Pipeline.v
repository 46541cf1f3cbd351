(** C30, C31 from the text of a protocol: parsed, analysed (Program.v), lowered (Lower.v), generated, run. *)
From Verif Require Import Base Scalar ConstInt EnumBits Expr Asg Gen Decode Encode Spec EncWf RtWf World Sample P_Coder ScopeSpec ScopeDec.
From Verif Require Import Tokens Ast Parse Front Program FrontFacts P_Types P_Args ElabSpec ElabProgram P_Program ConstSpec LowerSpec Lower ScopeFront.
Open Scope string_scope. Open Scope Z_scope. Open Scope list_scope.

(** C30. The decoder of every accepted type declaration that is not a tagged container (false for those: [C30_sibling_variant_refuted]) and in which no field is
    named like generated padding is well scoped. *)
Lemma accepted_decoders en n rs k text a p : parse text = Ok a -> from_ast en n rs k a = Ok p -> Forall clean_decl a ->
  forall x args f i fd chk m d, In (DType x args f) a -> mget x (p_types p) = Some i -> fget p i = Some fd -> untagged (f_type fd) -> lower_decl chk p m fd = Some d ->
  forall q fuel code, dec_code q fuel d = Some code -> dec_scoped code.
Proof.
  intros _ H C x args [t calc flags cnd xs] i fd chk m d Hin Ei Ef U L q fuel code Hc. apply accepted in H as (_ & _ & D & _); [|exact C].
  rewrite Forall_forall in D. specialize (D _ Hin). cbn [declared] in D. eapply decoder_scoped; [|exact Hc]. eapply type_vis; eassumption.
Qed.
Theorem C30_accepted_decoders_partial : forall en n rs k text a p, parse text = Ok a -> from_ast en n rs k a = Ok p -> Forall clean_decl a ->
  forall x args f i fd chk m d, In (DType x args f) a -> mget x (p_types p) = Some i -> fget p i = Some fd -> untagged (f_type fd) -> lower_decl chk p m fd = Some d ->
  forall q fuel code, dec_code q fuel d = Some code -> dec_scoped code.
Proof. exact accepted_decoders. Qed.
Print Assumptions C30_accepted_decoders_partial.

(** C31. A protocol whose text is accepted and whose declarations pass [prog_ok] (World.v) has coders that round-trip. *)
Theorem C31_text_roundtrip_partial : forall en n rs k text p chk m l rf tys,
  analyse en rs n k text = Ok p -> lower chk p m = Some l -> prog_ok l rf (prelude_marks tys) = true ->
  forall j x args v b rest, foreign_of (World.prog l) x = None ->
    sencode prelude_world (World.prog l) rf (Some prelude_good) j x args v = Ok (b, v) -> (Encode.mem x tys = true -> rest = []) ->
    encode prelude_world (World.prog l) rf j x args v = Ok b /\ decode prelude_world (World.prog l) rf j x args (b ++ rest) = Ok (v, rest).
Proof. exact (fun _ _ _ _ _ _ _ _ l rf tys _ _ H => C31_prelude_roundtrip_partial l rf tys H). Qed.
Print Assumptions C31_text_roundtrip_partial.

(** A text with every construct of the language, cf. Sample.v. *)
Definition any : fparam := {| fp_type := None; fp_optional := false |}.
Definition u64t : fty := FScalar (Front.be U64).
Definition sample_resolver : resolver := {|
  r_prelude := [(bs "len", {| fn_params := [any]; fn_ret := u64t |}); (bs "blen", {| fn_params := [any]; fn_ret := u64t |})];
  r_type := fun x => Ok (if name_eqb x (bs "utf8") || name_eqb x (bs "v32") then Some [] else None);
  r_xform := fun x => Ok (if name_eqb x (bs "xor") then Some [{| fp_type := Some (FScalar (Front.be U8)); fp_optional := false |}] else None);
  r_func := fun _ => Ok None; r_norm := fun x => Ok x; r_load := fun _ => Ok None |}.
Definition sample_text : string := "
import_ffi utf8 as type; import_ffi v32 as type; import_ffi xor as transform;
type Kind = enum u8 { Ping = 1, Data = 7, Other = default };
type Flags = bitfield u16le { urgent = 1, last = 256 };
type Item(n: u8) = container { id: v32, raw: u8[n] };
type Packet = container {
  kind: Kind, flags: Flags,
  count: u16le = len(data) :> u16, data: u16[count],
  seq: u32 { kind == Kind::Data },
  .pad: 3,
  bodylen: u32 = blen(body) :> u32,
  body: container [bodylen :> u64] { name: utf8, item: Item(2), rest: i16le[..] },
  tail: u8[..""\0""]
};
type Sealed = container { key: u8, box: u32[..] -> xor(key) };
type Msg(tag: u8) = container +tagged_enum { Small: u16 { tag == 1 }, Pair: container { x: u8, y: Kind } { tag == 2 }, Rest: u8[..] };
".
Definition sample_prog : prog := Eval vm_compute in match analyse string_env sample_resolver 30 2 (bs sample_text) with Ok p => p | _ => rec_prog end.
Lemma sample_accepted : analyse string_env sample_resolver 30 2 (bs sample_text) = Ok sample_prog.
Proof. vm_compute. reflexivity. Qed.
Definition sample_low : list (string * decl) := Eval vm_compute in match lower true sample_prog 30 with Some l => l | None => [] end.
Lemma sample_lowers : lower true sample_prog 30 = Some sample_low.
Proof. vm_compute. reflexivity. Qed.
Lemma sample_low_ok : prog_ok sample_low 20 sample_marks = true.
Proof. vm_compute. reflexivity. Qed.
Lemma sample_ast_clean : match parse (bs sample_text) with Ok a => Forall clean_decl a | _ => False end.
Proof.
  set (r := parse (bs sample_text)). vm_compute in r. subst r. cbv iota beta.
  repeat (apply Forall_cons; [cbn [clean_decl clean_type clean_field clean_args]; repeat split; try (apply not_pad; discriminate); try (repeat constructor)|]). constructor.
Qed.
Definition sample_ast : aprogram := Eval vm_compute in match parse (bs sample_text) with Ok a => a | _ => [] end.
Lemma sample_parses : parse (bs sample_text) = Ok sample_ast. Proof. vm_compute. reflexivity. Qed.

(** Whether the hypotheses of C30_accepted_decoders_partial hold of a declared type. *)
Definition meets (x : name) (a : aprogram) (p : prog) (l : list (string * decl)) : bool :=
  match find (fun d => match d with DType y _ _ => name_eqb y x | _ => false end) a, mget x (p_types p) with
  | Some _, Some i => match fget p i with
    | Some fd => match f_type fd with FCont _ _ false => true | _ => false end &&
        match lower_decl true p 30 fd with Some d => match dec_code (World.prog l) 20 d with Some _ => true | _ => false end | _ => false end
    | None => false end
  | _, _ => false
  end.
Lemma meets_spec x a p l : meets x a p l = true -> exists args f i fd d code, In (DType x args f) a /\ mget x (p_types p) = Some i /\ fget p i = Some fd /\ untagged (f_type fd) /\ lower_decl true p 30 fd = Some d /\ dec_code (World.prog l) 20 d = Some code.
Proof.
  unfold meets. destruct (find _ a) as [y|] eqn:F; [|discriminate]. apply find_some in F as [Hin Hy]. destruct y as [y args f| | |]; try discriminate Hy. apply name_eqb_eq in Hy. subst y.
  destruct (mget x (p_types p)) as [i|]; [|discriminate]. destruct (fget p i) as [fd|] eqn:Ef; [|discriminate]. intros H. apply andb_prop in H as [U H].
  destruct (lower_decl true p 30 fd) as [d|] eqn:El; [|discriminate]. destruct (dec_code (World.prog l) 20 d) as [code|] eqn:Ec; [|discriminate].
  exists args, f, i, fd, d, code. do 3 (split; [first [exact Hin|reflexivity|exact Ef]|]). split; [|split; [exact El|exact Ec]].
  destruct (f_type fd) as [| | | | | | | | |? ? []]; try discriminate U; reflexivity.
Qed.
Example C30_accepted_nonvacuous : parse (bs sample_text) = Ok sample_ast /\ from_ast string_env 30 sample_resolver 2 sample_ast = Ok sample_prog /\ Forall clean_decl sample_ast /\
  exists args f i fd d code, In (DType (bs "Packet") args f) sample_ast /\ mget (bs "Packet") (p_types sample_prog) = Some i /\ fget sample_prog i = Some fd /\ untagged (f_type fd) /\
    lower_decl true sample_prog 30 fd = Some d /\ dec_code (World.prog sample_low) 20 d = Some code.
Proof.
  split; [exact sample_parses|]. split; [vm_compute; reflexivity|].
  split; [pose proof sample_ast_clean as C; rewrite sample_parses in C; exact C|]. apply meets_spec. vm_compute. reflexivity.
Qed.
Definition sample_bytes : list Z := Eval vm_compute in match sencode prelude_world (World.prog sample_low) 20 (Some prelude_good) 5 "Packet" [] packet with Ok (b, _) => b | _ => [] end.
Lemma sample_encodes : sencode prelude_world (World.prog sample_low) 20 (Some prelude_good) 5 "Packet" [] packet = Ok (sample_bytes, packet).
Proof. vm_compute. reflexivity. Qed.
Example C31_text_nonvacuous : analyse string_env sample_resolver 30 2 (bs sample_text) = Ok sample_prog /\ lower true sample_prog 30 = Some sample_low /\ prog_ok sample_low 20 sample_marks = true /\
  sencode prelude_world (World.prog sample_low) 20 (Some prelude_good) 5 "Packet" [] packet = Ok (sample_bytes, packet) /\ List.length sample_bytes = 35%nat /\
  decode prelude_world (World.prog sample_low) 20 5 "Packet" [] (sample_bytes ++ [1; 2; 3]) = Ok (packet, [1; 2; 3]).
Proof.
  split; [exact sample_accepted|]. split; [exact sample_lowers|]. split; [exact sample_low_ok|]. split; [exact sample_encodes|]. split; [reflexivity|]. vm_compute. reflexivity.
Qed.
