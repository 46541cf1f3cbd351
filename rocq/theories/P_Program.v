(** C28, C43, C44: the accepted program is the one that was declared. *)
From Verif Require Import Base Scalar ConstInt ConstIntFacts Tokens Ast Parse Front Program FrontFacts TypeFacts P_Types P_Args ElabSpec ElabFacts ElabTypes ElabProgram.
From Coq Require Import Lia.
Open Scope string_scope. Open Scope Z_scope. Open Scope list_scope.

(** C28. In an accepted program no type and no constant is declared twice; each declaration's name denotes a definition that mirrors the
    declaration, names in it being resolved to the nearest field, else parameter, else constant ([type_elab], [const_elab], ElabSpec.v); foreign
    declarations likewise unless an import uses their name; imported types are not modified.  Partial: fields named like generated padding
    are excluded (C43_pad_collision_refuted) and imports replace definitions silently (C28_import_overwrites_refuted). *)
Lemma accepted en n rs k a p : from_ast en n rs k a = Ok p -> Forall clean_decl a ->
  NoDup (type_names a) /\ NoDup (const_names a) /\ Forall (declared n p) a /\ (forall x w, In (DFfi x w) a -> ~ In x (import_names a) -> ffi_elab rs p x w).
Proof.
  unfold from_ast. intros H C. destruct (snd (load en n rs k a [] [] [])) as [[c st]| | |]; cbn [bind] in H; try discriminate H.
  apply program_elab in H as (A & B & D & E & _); auto.
Qed.
Theorem C28_declarations_partial : forall en n rs k a p, from_ast en n rs k a = Ok p -> Forall clean_decl a ->
  NoDup (type_names a) /\ NoDup (const_names a) /\ Forall (declared n p) a /\ (forall x w, In (DFfi x w) a -> ~ In x (import_names a) -> ffi_elab rs p x w).
Proof. exact accepted. Qed.
Print Assumptions C28_declarations_partial.

(** C28. Hence a program that declares a name twice is not accepted. *)
Theorem C28_redeclaration_rejected : forall en n rs k a p, Forall clean_decl a -> ~ NoDup (type_names a) \/ ~ NoDup (const_names a) -> from_ast en n rs k a <> Ok p.
Proof. intros en n rs k a p C N H. apply accepted in H as (A & B & _); [|exact C]. destruct N; contradiction. Qed.
Print Assumptions C28_redeclaration_rejected.

(** C28. Scoping, spelled out: a name denotes the nearest field of that name; without one, the nearest parameter; without one, the constant. *)
Lemma scoping en n p sc x t e : cexpr en n p sc (ARef x) t = Ok e -> exists e0, (e = e0 \/ exists u, e = FCast e0 u) /\
  match resolve_field sc x, resolve_input sc x, mget x (p_consts p) with
  | Some i, _, _ => e0 = FField i
  | None, Some u, _ => e0 = FInput x u
  | None, None, Some c => e0 = FConst (c_name c) (c_type c) (c_value c)
  | None, None, None => False
  end.
Proof.
  intros H. cbn [cexpr] in H. destruct (resolve_field sc x) as [i|]; [|destruct (resolve_input sc x) as [u|]; [|destruct (mget x (p_consts p)) as [c|]]];
    cbn [bind] in H; try discriminate H; apply fit_shape in H; eexists; (split; [|reflexivity]); (destruct H as [->|(v & _ & ->)]; eauto).
Qed.
Theorem C28_scoping : forall en n p sc x t e, cexpr en n p sc (ARef x) t = Ok e -> exists e0, (e = e0 \/ exists u, e = FCast e0 u) /\
  match resolve_field sc x, resolve_input sc x, mget x (p_consts p) with
  | Some i, _, _ => e0 = FField i
  | None, Some u, _ => e0 = FInput x u
  | None, None, Some c => e0 = FConst (c_name c) (c_type c) (c_value c)
  | None, None, None => False
  end.
Proof. exact scoping. Qed.
Print Assumptions C28_scoping.

(** C28. An import replaces a foreign type, or an earlier import, of the same name without complaint. *)
Definition two_files : resolver := {| r_prelude := []; r_type := fun _ => Ok (Some []); r_xform := fun _ => Ok None; r_func := fun _ => Ok None; r_norm := fun x => Ok x;
  r_load := fun x => Ok (Some (if name_eqb x (bs "a") then bs "type t = u8;" else bs "type t = u16;")) |}.
Definition type_of (r : R prog) (x : name) : option fty :=
  match r with Ok p => match mget x (p_types p) with Some i => option_map f_type (fget p i) | None => None end | _ => None end.
Theorem C28_import_overwrites_refuted :
  type_of (analyse string_env two_files 20 3 (bs "import t from ""a""; import t from ""b"";")) (bs "t") = Some (FScalar (be U16)) /\
  type_of (analyse string_env two_files 20 3 (bs "import t from ""b""; import t from ""a"";")) (bs "t") = Some (FScalar (be U8)) /\
  type_of (analyse string_env two_files 20 3 (bs "import_ffi t as type; import t from ""a"";")) (bs "t") = Some (FScalar (be U8)).
Proof. split; [|split]; vm_compute; reflexivity. Qed.
Print Assumptions C28_import_overwrites_refuted.

(** C43. A container body keeps every item: in order, under distinct names, each with its own type, condition, transforms and calculation; types,
    conditions and transforms see only earlier fields, calculations all fields; nothing else is in it.  [elab] spells it out (ElabSpec.v). *)
Lemma bodies en n sc t u p t' p' F I : ctype en n sc t u p = Ok (t', p') -> clean_type t -> scoped sc F I -> elab n p' F I (top_of u) t t' /\
  (forall i f, fget p i = Some f -> fget p' i = Some f).
Proof.
  intros H C Hs. destruct (ctype_elab en n t _ _ _ _ _ H C) as [X K]. split; [|intros i f E; eapply ext_fget; eassumption]. apply K; [exact Hs|apply grow_refl|].
  intros i f _ E. exists f. split; [exact E|apply same_refl].
Qed.
Theorem C43_items_kept_partial : forall en n sc t u p t' p' F I, ctype en n sc t u p = Ok (t', p') -> clean_type t -> scoped sc F I -> elab n p' F I (top_of u) t t' /\
  (forall i f, fget p i = Some f -> fget p' i = Some f).
Proof. exact bodies. Qed.
Print Assumptions C43_items_kept_partial.

(** C43. In particular the item names are the declared ones, in order. *)
Fixpoint item_names (k : nat) (items : list aitem) : list name :=
  match items with [] => [] | IField x _ :: l => x :: item_names k l | IPad _ :: l => pad_name k :: item_names (S k) l end.
Lemma items_names n p F I all before k items its : items_elab n p F I all before k items its -> map fst its = item_names k items.
Proof. induction 1; cbn; [reflexivity| |]; rewrite IHitems_elab; reflexivity. Qed.
Lemma names_kept en n sc len flags items u p t' p' F I : ctype en n sc (YCont len flags items) u p = Ok (t', p') -> clean_type (YCont len flags items) -> scoped sc F I ->
  exists len' its tagged, t' = FCont len' its tagged /\ map fst its = item_names 0 items /\ NoDup (item_names 0 items).
Proof.
  intros H C Hs. apply (bodies _ _ _ _ _ _ _ _ F I) in H as [E _]; [|exact C|exact Hs]. inversion E; subst.
  - match goal with M : minl _ _ _ _ _ _ |- _ => inversion M end.
  - match goal with M : items_elab _ _ _ _ _ _ _ _ _ |- _ => apply items_names in M; rewrite <- M end. eauto 6.
Qed.
Theorem C43_names_kept_partial : forall en n sc len flags items u p t' p' F I, ctype en n sc (YCont len flags items) u p = Ok (t', p') -> clean_type (YCont len flags items) -> scoped sc F I ->
  exists len' its tagged, t' = FCont len' its tagged /\ map fst its = item_names 0 items /\ NoDup (item_names 0 items).
Proof. exact names_kept. Qed.
Print Assumptions C43_names_kept_partial.

(** C43. A field named like a generated padding item is silently dropped: here the first of three items. *)
Theorem C43_pad_collision_refuted :
  match type_of (analyse string_env no_resolver 20 2 (bs "type t = container { _pad0: u8, .pad: 4u64, b: u16 };")) (bs "t") with
  | Some (FCont _ its _) => map fst its = [bs "_pad0"; bs "b"]
  | _ => False
  end /\ analyse string_env no_resolver 20 2 (bs "type t = container { .pad: 4u64, _pad0: u8, b: u16 };") = Err (XFieldRedef (bs "_pad0")).
Proof. split; vm_compute; reflexivity. Qed.
Print Assumptions C43_pad_collision_refuted.

(** C44. The order of type declarations matters: before its declaration a type counts as bool. *)
Theorem C44_declaration_order_refuted :
  run_ok (analyse string_env no_resolver 20 2 (bs "type b = container { p: a, r: u8 { p } }; type a = u32;")) = true /\
  analyse string_env no_resolver 20 2 (bs "type a = u32; type b = container { p: a, r: u8 { p } };") = Err XUnexpectedType /\
  analyse string_env no_resolver 20 2 (bs "type b = container { p: a, r: u8 { p == 3u32 } }; type a = u32;") = Err XUnexpectedType /\
  run_ok (analyse string_env no_resolver 20 2 (bs "type a = u32; type b = container { p: a, r: u8 { p == 3u32 } };")) = true.
Proof. repeat split; vm_compute; reflexivity. Qed.
Print Assumptions C44_declaration_order_refuted.

(** A case that meets the hypotheses of C28 and C43. *)
Definition big_text : list Z := bs "import_ffi gz as transform; import t as s from ""a""; const k: u8 = 3u8; type e = enum u8 { a = 1, b, c = default }; type f = bitfield u8 { x = 1, y, z };
  type w(m: u8, d: u16 ? 2) = container { n: u8 = k, q: f, .pad: 4u64, l: u16[n] -> gz { n > m } , z: container { u: u8, v: u8 { q.y && u == n } }, i: s { d == 5u16 } };
  type v = container { g: tg }; type tg = container +tagged_enum { o: u8 { 1u8 == k }, r: w(2) };".
Definition big_files : resolver := {| r_prelude := []; r_type := fun _ => Ok (Some []); r_xform := fun _ => Ok (Some []); r_func := fun _ => Ok None; r_norm := fun x => Ok x;
  r_load := fun x => Ok (Some (bs "type t = u8;")) |}.
Definition big_ast : aprogram := Eval vm_compute in match parse big_text with Ok a => a | _ => [] end.
Lemma not_pad x : hd 0 x <> 95 -> forall k, x <> pad_name k. Proof. intros H k ->. apply H. reflexivity. Qed.
Example C28_nonvacuous : parse big_text = Ok big_ast /\ run_ok (from_ast string_env 20 big_files 3 big_ast) = true /\ Forall clean_decl big_ast /\ List.length big_ast = 8%nat.
Proof.
  split; [vm_compute; reflexivity|]. split; [vm_compute; reflexivity|]. split; [|reflexivity]. unfold big_ast.
  repeat constructor; cbn; apply not_pad; cbn; discriminate.
Qed.
