(** C46, C47: len() measures the data; the arguments of a type reach its body. *)
From Verif Require Import Base Scalar ScalarFacts EnumBits Expr Asg Gen Decode Encode Spec DecRef EncRef RtWf RoundTrip Prelude PreludeFacts UtfFacts World Sample CoderFacts P_Coder P_Coder2.
From Verif Require Import Tokens Ast Parse Front Program P_Types Lower PreludeNames.
From Coq Require Import Lia.
Open Scope string_scope. Open Scope Z_scope. Open Scope list_scope.

(** ** C46 *)

(** The programs: a count or length in front of what it counts. *)
Definition u64b : escalar := {| es_scalar := U64; es_endian := Big |}.
Definition prefixed (x d : string) (dty : ety) (t : ty) : string * decl :=
  decl0 x (TCont None false [(calc "n" (ECall "len" [EField d dty]), TScalar u64b); (fld d, t)]).
Definition utf8_decl : string * decl :=
  ("utf8", {| d_attr := fld "utf8"; d_ty := TForeign "utf8"; d_params := [{| Asg.pm_name := "length"; Asg.pm_default := Some (EInt {| ci_ty := U64; ci_val := 18446744073709551615 |}) |}] |}).
Definition utf8_prog : list (string * decl) := [utf8_decl; prefixed "msg" "s" (TyForeign "utf8") (TRef "utf8" [EField "n" (TyScalar u64b)])].
Definition array_prog (e : escalar) : list (string * decl) := [prefixed "msg" "s" (TyArr (TyScalar e)) (TArr (TScalar e) (LFixed (EField "n" (TyScalar u64b))))].
Definition msg (n d : val) : val := VStruct "msg" [("n", n); ("s", d)].

(** C46. [n: u64 = len(s), s: utf8(n)]: whatever the message's [n] says, the length of the string's UTF-8 bytes is written, then the bytes; and the
    message is read back with its true length, up to where the next one begins. *)
Lemma se_u64 z : 0 <= z < 2 ^ 64 -> se_prim (Asg.PScalar u64b) (VInt U64 z) = Ok (scalar_bytes u64b z, VInt U64 z).
Proof. intros H. unfold se_prim. cbn -[scalar_bytes in_range]. assert (R : in_range U64 z = true) by (apply in_range_iff; unfold min_of, max_of; cbn; lia). rewrite R. reflexivity. Qed.
Lemma utf8_prefix s n0 k rest : Forall usv s -> Z.of_nat (List.length (utf8_encode s)) < 2 ^ 63 ->
  let b := scalar_bytes u64b (Z.of_nat (List.length (utf8_encode s))) ++ utf8_encode s in
  encode prelude_world (World.prog utf8_prog) 20 (S k) "msg" [] (msg n0 (VStr s)) = Ok b /\
  decode prelude_world (World.prog utf8_prog) 20 (S k) "msg" [] (b ++ rest) = Ok (msg (VInt U64 (Z.of_nat (List.length (utf8_encode s)))) (VStr s), rest).
Proof.
  intros U L b. assert (O : prog_ok utf8_prog 20 (prelude_marks []) = true) by (vm_compute; reflexivity). assert (C : compiles (World.prog utf8_prog) 20) by (apply (prog_ok_compiles _ _ _ O)).
  destruct (C31_generated_code_meets_reference prelude_world _ 20 prelude_world_suffixing C (S k) "msg" []) as [_ E]. rewrite E. clear E C. split.
  - cbn -[scalar_bytes utf8_encode List.length Z.of_nat in_range]. rewrite se_u64 by lia. reflexivity.
  - apply (C31_prelude_roundtrip_partial utf8_prog 20 [] O (S k) "msg" [] _ b rest eq_refl); [|intros F; discriminate F].
    assert (P : forallb is_usv s = true). { apply forallb_forall. intros c Hc. rewrite Forall_forall in U. apply U in Hc. unfold usv in Hc. unfold is_usv. rewrite ?orb_true_iff, ?andb_true_iff, ?Z.leb_le, ?Z.ltb_lt. lia. }
    cbn -[scalar_bytes utf8_encode List.length Z.of_nat in_range Z.pow Z.ltb]. rewrite se_u64 by lia. cbn -[scalar_bytes utf8_encode List.length Z.of_nat in_range Z.pow Z.ltb]. rewrite Z.eqb_refl, P. apply Z.ltb_lt in L. rewrite L. reflexivity.
Qed.
Theorem C46_string_length : forall s n0 k rest, Forall usv s -> Z.of_nat (List.length (utf8_encode s)) < 2 ^ 63 ->
  let b := scalar_bytes u64b (Z.of_nat (List.length (utf8_encode s))) ++ utf8_encode s in
  encode prelude_world (World.prog utf8_prog) 20 (S k) "msg" [] (msg n0 (VStr s)) = Ok b /\
  decode prelude_world (World.prog utf8_prog) 20 (S k) "msg" [] (b ++ rest) = Ok (msg (VInt U64 (Z.of_nat (List.length (utf8_encode s)))) (VStr s), rest).
Proof. exact utf8_prefix. Qed.
Print Assumptions C46_string_length.

(** C46. [n: u64 = len(s), s: T[n]] with a scalar type T of either byte order: the number of elements is written, then the elements; and back. *)
Lemma array_prefix e zs n0 k rest : Forall (fun z => in_range (es_scalar e) z = true) zs -> Z.of_nat (List.length zs) * Z.of_nat (size (es_scalar e)) < 2 ^ 63 ->
  let d := VArr (map (VInt (es_scalar e)) zs) in
  let b := scalar_bytes u64b (Z.of_nat (List.length zs)) ++ flat_map (scalar_bytes e) zs in
  encode prelude_world (World.prog (array_prog e)) 20 (S k) "msg" [] (msg n0 d) = Ok b /\
  decode prelude_world (World.prog (array_prog e)) 20 (S k) "msg" [] (b ++ rest) = Ok (msg (VInt U64 (Z.of_nat (List.length zs))) d, rest).
Proof.
  intros U L d b. assert (O : prog_ok (array_prog e) 20 (prelude_marks []) = true) by (destruct e as [[] []]; vm_compute; reflexivity).
  assert (C : compiles (World.prog (array_prog e)) 20) by (apply (prog_ok_compiles _ _ _ O)).
  destruct (C31_generated_code_meets_reference prelude_world _ 20 prelude_world_suffixing C (S k) "msg" []) as [_ E]. rewrite E. clear E C.
  assert (M : mapM (prim_enc (Asg.PScalar e)) (map (VInt (es_scalar e)) zs) = Ok (map (scalar_bytes e) zs)).
  { clear - U. induction U as [|z zs Hz _ IH]; [reflexivity|]. cbn [map mapM prim_enc]. assert (Q : scalar_eqb (es_scalar e) (es_scalar e) = true) by (destruct (es_scalar e); reflexivity). rewrite Q, Hz, IH. reflexivity. }
  assert (W : forall g, sencode prelude_world (World.prog (array_prog e)) 20 g (S k) "msg" [] (msg n0 d) = Ok (b, msg (VInt U64 (Z.of_nat (List.length zs))) d)).
  { pose proof (size_le (es_scalar e)) as Hk. assert (F : fits (size (es_scalar e)) (map (VInt (es_scalar e)) zs) = true) by (unfold fits; rewrite map_length; apply Z.ltb_lt; exact L).
    assert (L' : Z.of_nat (List.length zs) < 2 ^ 64) by nia. clear L.
    intros g. unfold d, b. destruct g; cbn -[scalar_bytes List.length Z.of_nat in_range prim_enc mapM Z.modulo Z.pow fits size];
    rewrite map_length, se_u64 by lia; cbn -[scalar_bytes List.length Z.of_nat in_range prim_enc mapM Z.modulo Z.pow fits size]; rewrite M, Z.mod_small, !Z.eqb_refl by lia; cbn [bind]; rewrite ?Z.eqb_refl, ?F, <- flat_map_concat_map; reflexivity. }
  split; [rewrite W; reflexivity|]. specialize (W (Some prelude_good)). apply (C31_prelude_roundtrip_partial (array_prog e) 20 [] O (S k) "msg" [] _ b rest eq_refl); [|intros F; discriminate F].
  revert W. unfold d. cbn -[scalar_bytes List.length Z.of_nat in_range prim_enc mapM Z.modulo Z.pow fits size]. intros W; exact W.
Qed.
Theorem C46_element_count : forall e zs n0 k rest, Forall (fun z => in_range (es_scalar e) z = true) zs -> Z.of_nat (List.length zs) * Z.of_nat (size (es_scalar e)) < 2 ^ 63 ->
  let d := VArr (map (VInt (es_scalar e)) zs) in
  let b := scalar_bytes u64b (Z.of_nat (List.length zs)) ++ flat_map (scalar_bytes e) zs in
  encode prelude_world (World.prog (array_prog e)) 20 (S k) "msg" [] (msg n0 d) = Ok b /\
  decode prelude_world (World.prog (array_prog e)) 20 (S k) "msg" [] (b ++ rest) = Ok (msg (VInt U64 (Z.of_nat (List.length zs))) d, rest).
Proof. exact array_prefix. Qed.
Print Assumptions C46_element_count.

(** These are the programs the compiler works on for the texts. *)
Definition compiled (text : string) : option (list (string * decl)) :=
  match analyse prelude_env (with_prelude no_resolver) 30 2 (bs text) with Ok p => lower true p 30 | _ => None end.
Example C46_nonvacuous :
  compiled "import_ffi utf8 as type; type msg = container { n: u64 = len(s), s: utf8(n) };" = Some utf8_prog /\
  compiled "type msg = container { n: u64 = len(s), s: i32le[n] };" = Some (array_prog {| es_scalar := I32; es_endian := Little |}) /\
  Forall usv [104; 233; 8364; 128512] /\ utf8_encode [104; 233; 8364; 128512] = [104; 195; 169; 226; 130; 172; 240; 159; 152; 128].
Proof. split; [vm_compute; reflexivity|]. split; [vm_compute; reflexivity|]. split; [repeat constructor; unfold usv; lia|vm_compute; reflexivity]. Qed.

(** C46. A utf16 string's length is a number of 16-bit units, which len() does not count: [n: u64 = len(s), s: utf16(n)] is accepted, writes one unit for
    U+0E0E (as it should: the two bytes of the unit are equal, so that the byte order does not matter, C09), but counts three, and cannot be read. *)
Definition utf16_decl : string * decl := ("utf16", {| d_attr := fld "utf16"; d_ty := TForeign "utf16"; d_params := [{| Asg.pm_name := "length"; Asg.pm_default := None |}] |}).
Definition utf16_prog : list (string * decl) := [utf16_decl; prefixed "msg" "s" (TyForeign "utf16") (TRef "utf16" [EField "n" (TyScalar u64b)])].
(** The prelude with utf16 on a machine of byte order [host] (prelude/utf16.rs:20-64, Prelude.v). *)
Definition utf16_world (host : endian) : world := {|
  w_chk := true; w_fty := prelude_fty; w_ufn := fun _ _ => Panic;
  w_fenc := fun f vs v => if String.eqb f "utf16" then match v with VStr s => Ok (utf16_write s) | _ => Panic end else pw_fenc f vs v;
  w_fdec := fun f vs l => if String.eqb f "utf16" then match vs with [VInt U64 n] => let! (s, l) := utf16_read host n l in Ok (VStr s, l) | _ => Panic end else pw_fdec f vs l;
  w_xenc := pw_xenc; w_xdec := pw_xdec; w_fill := fun n => n |}.
Theorem C46_utf16_length_refuted : compiled "import_ffi utf16 as type; type msg = container { n: u64 = len(s), s: utf16(n) };" = Some utf16_prog /\
  forall host, encode (utf16_world host) (World.prog utf16_prog) 20 5 "msg" [] (msg (VInt U64 1) (VStr [3598])) = Ok [0; 0; 0; 0; 0; 0; 0; 3; 14; 14] /\
    decode (utf16_world host) (World.prog utf16_prog) 20 5 "msg" [] [0; 0; 0; 0; 0; 0; 0; 3; 14; 14] = Err EEof /\
    decode (utf16_world host) (World.prog utf16_prog) 20 5 "msg" [] [0; 0; 0; 0; 0; 0; 0; 1; 14; 14] = Ok (msg (VInt U64 1) (VStr [3598]), []).
Proof. split; [vm_compute; reflexivity|]. intros []; repeat split; vm_compute; reflexivity. Qed.
Print Assumptions C46_utf16_length_refuted.

(** ** C47 *)

(** What a parameter is, given its argument and the parameters before it: an argument of a required parameter as it is, that of an optional one if there is
    one, else the default. *)
Inductive meant (w : world) (before : list (string * val)) (q : Asg.param) : val -> val -> Prop :=
| meant_required v : Asg.pm_default q = None -> meant w before q v v
| meant_supplied e v : Asg.pm_default q = Some e -> meant w before q (VOpt (Some v)) v
| meant_default e v : Asg.pm_default q = Some e -> eval w (fun y => lookup y before) (fun _ => None) e = Ok v -> meant w before q (VOpt None) v.
(** All parameters, the last one first. *)
Inductive bound (w : world) : list (string * val) -> list Asg.param -> list val -> list (string * val) -> Prop :=
| bound_nil before : bound w before [] [] before
| bound_cons before q a v ps args all : meant w before q a v -> bound w ((Asg.pm_name q, v) :: before) ps args all -> bound w before (q :: ps) (a :: args) all.

Lemma bound_binds w : forall ps args before all, bound w before ps args all <-> bind_params w ps args before = Ok all.
Proof.
  induction ps as [|[x [e|]] ps IH]; intros args before all.
  - split; [intros H; inversion H; subst; reflexivity|]. destruct args; cbn; [intros H; apply Ok_inj in H; subst; constructor|discriminate].
  - split.
    + intros H. inversion H as [|? ? ? v ? ? ? Hm Hb]; subst. inversion Hm as [? D|? ? D|e' ? D Ev]; subst; cbn in D; try discriminate D; cbn [bind_params].
      * apply IH in Hb. exact Hb.
      * injection D as <-. rewrite Ev. cbn [bind]. apply IH in Hb. exact Hb.
    + destruct args as [|a args]; cbn [bind_params]; [discriminate|]. destruct a as [| | | | | | | | | | | |o]; try discriminate. destruct o as [v|].
      * intros H. eapply bound_cons; [eapply meant_supplied; reflexivity|]. apply IH. exact H.
      * destruct (eval w (fun y => lookup y before) (fun _ => None) e) as [v| | |] eqn:Ev; cbn [bind]; try discriminate. intros H. eapply bound_cons; [eapply meant_default; [reflexivity|exact Ev]|]. apply IH. exact H.
  - split.
    + intros H. inversion H as [|? ? ? v ? ? ? Hm Hb]; subst. inversion Hm as [? D|? ? D|e' ? D Ev]; subst; cbn in D; try discriminate D; cbn [bind_params]. apply IH in Hb. exact Hb.
    + destruct args as [|a args]; cbn [bind_params]; [discriminate|]. intros H. eapply bound_cons; [eapply meant_required; reflexivity|]. apply IH. exact H.
Qed.

(** C47. Reading and writing [type x(...) = u8[e]], [e] an expression of the parameters: exactly as many bytes as [e] is with the parameters' values. *)
Lemma u8_prim b : 0 <= b < 256 -> prim_of (Asg.PScalar u8be) [b] = VInt U8 b.
Proof. intros H. unfold prim_of, scalar_of_bytes. cbn. f_equal. unfold wrap. cbn. rewrite ?Z.add_0_r, ?Z.mul_0_l. cbn. try rewrite Z.mod_small by lia. reflexivity. Qed.
Lemma u8_chunks : forall n l, bytes_ok l -> List.length l = n -> map (prim_of (Asg.PScalar u8be)) (chunks n 1 l) = map (VInt U8) l.
Proof.
  induction n as [|n IH]; intros [|b l] B H; try discriminate H; [reflexivity|]. cbn [chunks firstn skipn map]. inversion B; subst. rewrite u8_prim by assumption. f_equal. apply IH; [assumption|]. injection H as H. exact H.
Qed.
Lemma decode_sized w p rf : world_suffixing w -> compiles p rf -> forall k x d args env e s z l,
  p x = Some d -> bound w [] (d_params d) args env -> d_ty d = TArr (TScalar u8be) (LFixed e) -> fa_xs (d_attr d) = [] ->
  eval w (fun y => lookup y env) (fun _ => None) e = Ok (VInt s z) -> 0 <= z < 2 ^ 63 -> bytes_ok l ->
  decode w p rf (S k) x args l = if (Z.to_nat z <=? List.length l)%nat then Ok (VTup (u8s (firstn (Z.to_nat z) l)), skipn (Z.to_nat z) l) else Err EEof.
Proof.
  intros Hw Hp k x d args env e s z l Hd Hb Ht Hx He Hz B. apply bound_binds in Hb. rewrite (decode_top w p rf Hw Hp k x args d env l Hd Hb). unfold sd_top. rewrite Ht, Hx. cbn [rev sd_xs sd_type sd_arr].
  unfold ev. change (fun n => lookup n []) with (fun _ : string => @None val). rewrite He. cbn [bind]. assert (R : Asg.resolved p rf (TScalar u8be) = TScalar u8be) by (destruct rf; reflexivity). rewrite R. cbn [kind_of].
  assert (Q : arr_size (w_chk w) (prim_size (Asg.PScalar u8be)) (VInt s z) = Ok (Z.to_nat z)) by (rewrite <- (Z2Nat.id z) at 1 by lia; rewrite arr_size_nat; cbn [prim_size size es_scalar u8be]; [f_equal; lia|lia|lia]). rewrite Q. cbn [bind]. unfold read_prims. change (prim_size (Asg.PScalar u8be)) with 1%nat. rewrite Nat.div_1_r. unfold read_exact.
  destruct (Nat.leb_spec (Z.to_nat z) (List.length l)) as [L|L]; [|reflexivity]. cbn [bind]. unfold u8s. do 4 f_equal. apply u8_chunks; [|apply firstn_length_le; exact L].
  apply Forall_forall. intros b Hin. unfold bytes_ok in B. rewrite Forall_forall in B. apply B. rewrite <- (firstn_skipn (Z.to_nat z) l). apply in_or_app. left. exact Hin.
Qed.
Lemma encode_sized w p rf : compiles p rf -> forall k x d args env e s z l,
  p x = Some d -> bound w [] (d_params d) args env -> d_ty d = TArr (TScalar u8be) (LFixed e) -> fa_xs (d_attr d) = [] ->
  eval w (fun y => lookup y env) (fun _ => None) e = Ok (VInt s z) -> 0 <= z < 2 ^ 63 -> bytes_ok l ->
  encode w p rf (S k) x args (VTup (u8s l)) = if Z.of_nat (List.length l) =? z then Ok l else Panic.
Proof.
  intros Hp k x d args env e s z l Hd Hb Ht Hx He Hz B. apply bound_binds in Hb. rewrite (encode_refines w p rf (proj2 Hp)). cbn [sencode]. rewrite Hd. cbn [of_some bind]. rewrite Hb. cbn [bind]. unfold se_top. rewrite Ht, Hx.
  cbn [rev se_xs se_type se_arr u8s]. unfold ev. change (fun n => lookup n []) with (fun _ : string => @None val). rewrite He. cbn [bind]. assert (R : Asg.resolved p rf (TScalar u8be) = TScalar u8be) by (destruct rf; reflexivity). rewrite R. cbn [kind_of].
  assert (M : mapM (prim_enc (Asg.PScalar u8be)) (map (VInt U8) l) = Ok (map (fun b => [b]) l)).
  { clear - B. induction B as [|b l Hb _ IH]; [reflexivity|]. unfold byte_ok in Hb. cbn [map mapM prim_enc]. assert (I : in_range U8 b = true) by (apply in_range_iff; unfold min_of, max_of; cbn; lia).
    change (scalar_eqb U8 (es_scalar u8be)) with true. rewrite I, IH. cbn [andb bind]. do 3 f_equal. unfold scalar_bytes. cbn. rewrite Z.mod_small by lia. reflexivity. }
  unfold arr_of, u8s. cbn [bind vint of_some refuse]. rewrite map_length, Z.mod_small by lia. rewrite (Z.eqb_sym z). destruct (Z.of_nat (List.length l) =? z); [|reflexivity]. rewrite M. cbn [bind]. f_equal. clear. induction l as [|b l IH]; [reflexivity|]. cbn. rewrite IH. reflexivity.
Qed.
Theorem C47_body_sees_arguments : forall w p rf, world_suffixing w -> compiles p rf -> forall k x d args env e s z l,
  p x = Some d -> bound w [] (d_params d) args env -> d_ty d = TArr (TScalar u8be) (LFixed e) -> fa_xs (d_attr d) = [] ->
  eval w (fun y => lookup y env) (fun _ => None) e = Ok (VInt s z) -> 0 <= z < 2 ^ 63 -> bytes_ok l ->
  decode w p rf (S k) x args l = (if (Z.to_nat z <=? List.length l)%nat then Ok (VTup (u8s (firstn (Z.to_nat z) l)), skipn (Z.to_nat z) l) else Err EEof) /\
  encode w p rf (S k) x args (VTup (u8s l)) = (if Z.of_nat (List.length l) =? z then Ok l else Panic).
Proof. exact (fun w p rf Hw Hp k x d args env e s z l H1 H2 H3 H4 H5 H6 H7 => conj (decode_sized w p rf Hw Hp k x d args env e s z l H1 H2 H3 H4 H5 H6 H7) (encode_sized w p rf Hp k x d args env e s z l H1 H2 H3 H4 H5 H6 H7)). Qed.
Print Assumptions C47_body_sees_arguments.

(** C47. Arguments that do not fit the parameters are not accepted, whatever the type. *)
Lemma unbound w p rf : world_suffixing w -> compiles p rf -> forall k x d args, p x = Some d -> (forall env, ~ bound w [] (d_params d) args env) ->
  (forall l r, decode w p rf k x args l <> Ok r) /\ (forall v b, encode w p rf k x args v <> Ok b).
Proof.
  intros Hw Hp [|k] x d args Hd N; [split; intros ? ? H; discriminate H|]. assert (E : forall env, bind_params w (d_params d) args [] <> Ok env) by (intros env H; apply bound_binds in H; exact (N env H)). split.
  - intros l r. destruct (decode_refines w p rf Hw (proj1 Hp) (S k) x args l) as (-> & _). cbn [sdecode]. rewrite Hd. cbn [of_some bind]. destruct (bind_params w (d_params d) args []) as [env| | |] eqn:F; cbn [bind]; try discriminate. destruct (E env eq_refl).
  - intros v b. rewrite (encode_refines w p rf (proj2 Hp)). cbn [sencode]. rewrite Hd. cbn [of_some bind]. destruct (bind_params w (d_params d) args []) as [env| | |] eqn:F; cbn [bind]; try discriminate. destruct (E env eq_refl).
Qed.
Theorem C47_arguments_checked : forall w p rf, world_suffixing w -> compiles p rf -> forall k x d args, p x = Some d -> (forall env, ~ bound w [] (d_params d) args env) ->
  (forall l r, decode w p rf k x args l <> Ok r) /\ (forall v b, encode w p rf k x args v <> Ok b).
Proof. exact unbound. Qed.
Print Assumptions C47_arguments_checked.

(** Every way a parameter gets its value: [type item(a: u8, n: u8 ? a + 1) = u8[n]] is read with n given, and without. *)
Definition item_text : string := "type item(a: u8, n: u8 ? a + 1) = u8[n]; type msg = container { s: item(2) };".
Definition item_prog : list (string * decl) := Eval vm_compute in match compiled item_text with Some l => l | None => [] end.
Example C47_nonvacuous : compiled item_text = Some item_prog /\ (exists d, World.prog item_prog "item" = Some d /\
  bound prelude_world [] (d_params d) [VInt U8 2; VOpt (Some (VInt U8 1))] [("n", VInt U8 1); ("a", VInt U8 2)] /\
  bound prelude_world [] (d_params d) [VInt U8 2; VOpt None] [("n", VInt U8 3); ("a", VInt U8 2)]) /\ compiles (World.prog item_prog) 20 /\
  decode prelude_world (World.prog item_prog) 20 5 "item" [VInt U8 2; VOpt (Some (VInt U8 1))] [7; 8; 9; 10] = Ok (VTup (u8s [7]), [8; 9; 10]) /\
  decode prelude_world (World.prog item_prog) 20 5 "item" [VInt U8 2; VOpt None] [7; 8; 9; 10] = Ok (VTup (u8s [7; 8; 9]), [10]).
Proof.
  split; [vm_compute; reflexivity|]. split. { eexists. split; [reflexivity|]. split; apply bound_binds; vm_compute; reflexivity. }
  split; [apply (prog_ok_compiles item_prog 20 (prelude_marks [])); vm_compute; reflexivity|]. split; vm_compute; reflexivity.
Qed.

(** C47. From inside the language a parameter with a default is out of reach: a reference passes bare values, and none for an omitted argument, where the generated
    function expects an Option.  A program that refers to such a type is accepted, and its coders never work. *)
Definition plain_arg (v : val) : Prop := forall o, v <> VOpt o.
Lemma defaults_panic w : forall ps args before, existsb (fun q => match Asg.pm_default q with Some _ => true | None => false end) ps = true -> Forall plain_arg args -> bind_params w ps args before = Panic.
Proof.
  induction ps as [|[x [e|]] ps IH]; intros args before H F; [discriminate H| |].
  - destruct F as [|v args Hv F]; [reflexivity|]. cbn [bind_params]. destruct v; try reflexivity. destruct (Hv o eq_refl).
  - cbn in H. destruct F as [|v args Hv F]; [reflexivity|]. cbn [bind_params]. apply IH; assumption.
Qed.
Theorem C47_reference_defaults_refuted :
  (forall w p rf k x d args, p x = Some d -> existsb (fun q => match Asg.pm_default q with Some _ => true | None => false end) (d_params d) = true -> Forall plain_arg args ->
     (forall l, sdecode w p rf (S k) x args l = Panic) /\ (forall v, sencode w p rf None (S k) x args v = Panic)) /\
  compiled item_text = Some item_prog /\ (forall l, decode prelude_world (World.prog item_prog) 20 5 "msg" [] l = Panic) /\
  (forall v, encode prelude_world (World.prog item_prog) 20 5 "msg" [] (VStruct "msg" [("s", v)]) = Panic).
Proof.
  split; [|split; [vm_compute; reflexivity|]].
  - intros w p rf k x d args Hd Hq F. split; intros; cbn [sdecode sencode]; rewrite Hd; cbn [of_some bind]; rewrite (defaults_panic w _ _ [] Hq F); reflexivity.
  - assert (C : compiles (World.prog item_prog) 20) by (apply (prog_ok_compiles item_prog 20 (prelude_marks [])); vm_compute; reflexivity).
    destruct (C31_generated_code_meets_reference prelude_world _ 20 prelude_world_suffixing C 5 "msg" []) as [D E]. split; [intros l; rewrite D; reflexivity|intros v; rewrite E; reflexivity].
Qed.
Print Assumptions C47_reference_defaults_refuted.
