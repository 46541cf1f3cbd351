(** Property C59: whatever value of the generated data type it is given, an encoder returns. *)
From Verif Require Import ScalarFacts ConstIntFacts PreludeFacts UtfFacts DecRef EncRef RtWf RoundTrip CoderFacts World Sample Data DataFacts Safe SafeFacts SafeDec EncSafe EncSafeFacts.
From Verif Require Import P_Coder P_Data P_Lengths P_Safe.
Open Scope string_scope. Open Scope Z_scope. Open Scope list_scope.

(** What is assumed of the surroundings: with the arguments [sg] allows, foreign types write their values and transforms transform any bytes, or report an error; the foreign
    types that are integers are all the integers of their Rust type. *)
Definition safe_writers (w : world) (p : program) (F : string -> val -> Prop) (sg : sig) : Prop :=
  (forall f s, sg_int sg f = Some s -> forall v, F f v <-> exists z, v = VInt s z /\ in_range s z = true) /\
  (forall f h v, sg_len sg f = Some h -> F f v -> exists z, vlen v = Ok (VInt U64 z) /\ 0 <= z <= h) /\
  (forall f ats vs v, sg_f sg f ats = true -> Forall2 (vhas p F) ats vs -> F f v -> w_fenc w f vs v <> Panic /\ w_fenc w f vs v <> Hang) /\
  (forall x ats vs b, sg_x sg x ats = true -> Forall2 (vhas p F) ats vs -> w_xenc w x vs b <> Panic /\ w_xenc w x vs b <> Hang).
(** Every declaration with known parameters passes the check. *)
Definition enc_safe_prog (w : world) (p : program) (rf : nat) (sg : sig) (par : string -> option (list aty)) : Prop :=
  forall n ps, par n = Some ps -> exists d, p n = Some d /\ foreign_of p n = None /\ decl_esafe p rf (w_fty w) sg par n ps d = true.

Lemma encoder_returns w p rf F sg par : compiles p rf -> safe_writers w p F sg -> enc_safe_prog w p rf sg par ->
  forall n ps args v, par n = Some ps -> Forall2 (vhas p F) ps args -> has p F (RTNamed n) v ->
  exists depth r, (forall k, (depth <= k)%nat -> encode w p rf k n args v = r) /\ r <> Panic /\ r <> Hang.
Proof.
  intros C (Hi & Hl & Hf & Hx) P n ps args v En Ha Hv.
  assert (Hint : forall f s v, sg_int sg f = Some s -> F f v -> exists z, v = VInt s z /\ in_range s z = true) by (intros f s u E Hu; apply (Hi _ _ E); exact Hu).
  assert (Hall : forall f s z, sg_int sg f = Some s -> in_range s z = true -> F f (VInt s z)) by (intros f s z E R; apply (Hi _ _ E); eauto).
  assert (Hef : forall f ats vs v, sg_f sg f ats = true -> Forall2 (vhas p F) ats vs -> F f v -> okerr (w_fenc w f vs v)) by (intros; apply okerr_not; eapply Hf; eassumption).
  assert (Hex : forall x ats vs b, sg_x sg x ats = true -> Forall2 (vhas p F) ats vs -> okerr (w_xenc w x vs b)) by (intros; apply okerr_not; eapply Hx; eassumption).
  destruct (sencode_halts w p rf F sg par Hint Hl Hall Hef Hex P n ps args v En Ha Hv) as (K & G1 & G2).
  exists K, (let! (b, _) := sencode w p rf None K n args v in Ok b). split.
  - intros k Hk. rewrite (encode_refines w p rf (proj2 C)). rewrite (G2 k Hk). reflexivity.
  - apply okerr_not. apply okerr_bind; [exact G1|]. intros [b u] _. exact I.
Qed.

(** C59. Whatever value of its generated data type it is given, the encoder of a type that passes the check in EncSafe.v returns bytes or an error: it does not panic and does not
    loop.  [depth] is how deep it recurses; with a stack that deep, the answer is always the same.  Missing from the full statement: programs outside the check (see
    C59_crashes_refuted). *)
Theorem C59_encoder_returns_partial : forall w p rf F sg par, compiles p rf -> safe_writers w p F sg -> enc_safe_prog w p rf sg par ->
  forall n ps args v, par n = Some ps -> Forall2 (vhas p F) ps args -> has p F (RTNamed n) v ->
  exists depth r, (forall k, (depth <= k)%nat -> encode w p rf k n args v = r) /\ r <> Panic /\ r <> Hang.
Proof. exact encoder_returns. Qed.
Print Assumptions C59_encoder_returns_partial.

(** The prelude: varints, utf8 and xor write whatever they are given. *)
Definition prelude_esig : sig := {|
  sg_f := fun f ats => match var_of f with
    | Some _ => true
    | None => String.eqb f "utf8" && match ats with [] => true | [AInt U64 _ _] => true | _ => false end
    end;
  sg_x := fun x ats => String.eqb x "xor" && match ats with [AInt U8 _ _] => true | _ => false end;
  sg_eat := fun f => is_some (var_of f);
  sg_int := var_of;
  sg_len := fun f => if String.eqb f "utf8" then Some (2 ^ 63 - 1) else None |}.
Lemma prelude_writers p : safe_writers prelude_world p prelude_values prelude_esig.
Proof.
  split; [|split; [|split]].
  - intros f s E v. cbn in E. unfold prelude_values. rewrite E. reflexivity.
  - intros f h v E. cbn -[Z.pow] in E. destruct (String.eqb_spec f "utf8") as [->|]; [|discriminate]. injection E as <-. unfold prelude_values. change (var_of "utf8") with (@None scalar). cbv iota. intros (_ & s & -> & _ & B). cbn [vlen]. eexists. split; [reflexivity|]. lia.
  - intros f ats vs v E Hv Hu. apply okerr_not. cbn in *. unfold pw_fenc, prelude_values in *. destruct (var_of f) as [s|].
    + destruct Hu as (z & -> & _). rewrite scalar_eqb_refl, varint_encode_groups. exact I.
    + destruct Hu as (-> & s & -> & _). cbn [String.eqb Ascii.eqb Bool.eqb andb] in *. destruct Hv as [|a x ats vs Ha Hv]; [exact I|]. destruct a as [sc lo hi|]; [|discriminate]. destruct sc; try discriminate. destruct Hv; [|discriminate]. destruct Ha as (z & -> & _). exact I.
  - intros x ats vs b E Hv. apply okerr_not. cbn in *. unfold pw_xenc. destruct (String.eqb x "xor"); [|discriminate]. cbn [andb] in E. destruct Hv as [|a v ats vs Ha Hv]; [discriminate|]. destruct a as [s lo hi|]; [|discriminate]. destruct s; try discriminate. destruct Hv; [|discriminate].
    destruct Ha as (z & -> & _). exact I.
Qed.
(** C59 over the prelude, with everything assumed of the program one decidable check. *)
Definition enc_safe_list (l : list (string * decl)) (rf : nat) (par : list (string * list aty)) : bool :=
  forallb (fun na => match prog l (fst na) with Some d => negb (is_some (foreign_of (prog l) (fst na))) && decl_esafe (prog l) rf prelude_fty prelude_esig (fun n => lookup n par) (fst na) (snd na) d | None => false end) par.
Lemma enc_safe_list_spec l rf par : enc_safe_list l rf par = true -> enc_safe_prog prelude_world (prog l) rf prelude_esig (fun n => lookup n par).
Proof.
  intros H n a E. apply lookup_some_in in E. unfold enc_safe_list in H. rewrite forallb_forall in H. specialize (H _ E). cbn [fst snd] in H. destruct (prog l n) as [d|]; [|discriminate]. apply andb_true_iff in H as (H1 & H2). exists d. split; [reflexivity|]. split; [|exact H2].
  destruct (foreign_of (prog l) n); [discriminate|reflexivity].
Qed.
(** The compiler generates code for every declaration (the conditions of [compiles], decidable). *)
Definition compiles_list (l : list (string * decl)) (rf : nat) : bool :=
  forallb (fun nd => dec_wfb (snd nd) && is_some (dec_code (prog l) rf (snd nd)) && enc_wf (snd nd) && is_some (enc_code (prog l) rf (snd nd))) l.
Lemma compiles_list_spec l rf : compiles_list l rf = true -> compiles (prog l) rf.
Proof.
  intros H. unfold compiles_list in H. rewrite forallb_forall in H. split; intros n d E; apply lookup_some_in in E; specialize (H _ E); cbn [snd] in H; rewrite !andb_true_iff in H; destruct H as (((H1 & H2) & H3) & H4).
  - split; [apply dec_wfb_spec; exact H1|]. destruct (dec_code _ _ _); [discriminate|discriminate H2].
  - split; [exact H3|]. destruct (enc_code _ _ _); [discriminate|discriminate H4].
Qed.
Theorem C59_prelude_encoder_returns_partial : forall l rf par, compiles_list l rf = true -> enc_safe_list l rf par = true ->
  forall n ps args v, lookup n par = Some ps -> Forall2 (vhas (prog l) prelude_values) ps args -> has (prog l) prelude_values (RTNamed n) v ->
  exists depth r, (forall k, (depth <= k)%nat -> encode prelude_world (prog l) rf k n args v = r) /\ r <> Panic /\ r <> Hang.
Proof. exact (fun l rf par H S => encoder_returns _ _ _ _ _ _ (compiles_list_spec _ _ H) (prelude_writers _) (enc_safe_list_spec l rf par S)). Qed.
Print Assumptions C59_prelude_encoder_returns_partial.

(** The sample program (but for its types with arrays counted by hand or by a narrower integer), and what the compiler makes of this text. *)
Definition shapes_text : string :=
  "import_ffi utf8 as type; import_ffi v32 as type; type kind = enum u8 { end = 0, leaf = 1, pair = 2 }; type name = container { n: u64 = len(s), s: utf8(n) }; type tree = container { k: kind, c: u32 = len(kids) :> u32, kids: tree[c], q: u32 = blen(body) :> u32, t: u8, body: container [q] { z: u8, zs: u16[..], nm: name {t > 3} }, opt: container { a: u8, m: u64 = 3, b: u32[.. ""ab""] {k == kind::leaf}, c2: container { y: v32 }} {t == 1}, .pad: 4 }; type msg(m: u8) = container +tagged_enum { a: tree {m == 1}, b: container { g: u64 = len(h), h: u8[g] } {m == 2}, r: u8[..] };".
Definition shapes_par : list (string * list aty) := [("kind", []); ("name", []); ("tree", []); ("msg", [afull U8])].
Definition sample_par : list (string * list aty) := [("Kind", []); ("Flags", []); ("Sealed", []); ("Msg", [afull U8])].
Definition blob_value (n : Z) (l : list Z) : val := VVariantS "msg" "b" [("g", VInt U64 n); ("h", VArr (map (VInt U8) l))].
Lemma u8s_has p l : forallb (in_range U8) l = true -> Z.of_nat (List.length l) <? 2 ^ 63 = true -> has p prelude_values (RTVec (RTInt U8)) (VArr (map (VInt U8) l)).
Proof. intros H L. apply Z.ltb_lt in L. constructor; [|rewrite map_length; exact L]. intros v Hv. apply in_map_iff in Hv as (x & <- & Hx). constructor. rewrite forallb_forall in H. apply H. exact Hx. Qed.
Example C59_nonvacuous :
  (compiles_list sample_list 20 = true /\ enc_safe_list sample_list 20 sample_par = true) /\
  (compiles_list (program_of shapes_text) 20 = true /\ enc_safe_list (program_of shapes_text) 20 shapes_par = true) /\
  (forall m v, in_range U8 m = true -> has (prog (program_of shapes_text)) prelude_values (RTNamed "msg") v ->
     exists depth r, (forall k, (depth <= k)%nat -> encode prelude_world (prog (program_of shapes_text)) 20 k "msg" [VInt U8 m] v = r) /\ r <> Panic /\ r <> Hang) /\
  (* the stored count is ignored; the wrong variant is refused *)
  has (prog (program_of shapes_text)) prelude_values (RTNamed "msg") (blob_value 77 [5; 6]) /\
  encode prelude_world (prog (program_of shapes_text)) 20 9 "msg" [VInt U8 2] (blob_value 77 [5; 6]) = Ok [0; 0; 0; 0; 0; 0; 0; 2; 5; 6] /\
  encode prelude_world (prog (program_of shapes_text)) 20 9 "msg" [VInt U8 1] (blob_value 77 [5; 6]) = Err EEncode.
Proof.
  assert (A : compiles_list (program_of shapes_text) 20 = true) by (vm_compute; reflexivity). assert (B : enc_safe_list (program_of shapes_text) 20 shapes_par = true) by (vm_compute; reflexivity).
  split; [split; vm_compute; reflexivity|]. split; [auto|]. split.
  { intros m v R Hv. refine (C59_prelude_encoder_returns_partial _ 20 shapes_par A B "msg" [afull U8] [VInt U8 m] v eq_refl _ Hv). constructor; [apply afull_has; exact R|constructor]. }
  split; [|split; vm_compute; reflexivity]. unfold blob_value.
  eapply HVariantS; [vm_compute; reflexivity|vm_compute; reflexivity|right; left; reflexivity|]. constructor; [constructor; reflexivity|]. constructor; [apply u8s_has; reflexivity|constructor].
Qed.
Print Assumptions C59_nonvacuous.

(** C59 fails for the programs the check excludes.  All of these are accepted, and generate code that type-checks; the encoder panics on a value of the generated type. *)
Definition enc_crashes (text : string) (v : val) : Prop :=
  compiles_list (program_of text) 20 = true /\ data_prog (program_of text) 20 = true /\ has (prog (program_of text)) prelude_values (RTNamed "t") v /\
  forall k, encode prelude_world (prog (program_of text)) 20 (S (S k)) "t" [] v = Panic.
Definition u8 (z : Z) : val := VInt U8 z.
Definition u8s (l : list Z) : val := VArr (map (VInt U8) l).
Theorem C59_crashes_refuted :
  (* a stored count, and a constant one, that is not the length of the array *)
  enc_crashes "type t = container { n: u8, d: u8[n] };" (VStruct "t" [("n", u8 2); ("d", u8s [7])]) /\
  enc_crashes "type t = container { d: u8[2] };" (VStruct "t" [("d", u8s [])]) /\
  enc_crashes "type e = container { x: u8 }; type t = container { n: u8, d: e[n] };" (VStruct "t" [("n", u8 1); ("d", VArr [])]) /\
  (* a computed count that does not hold the length of the array *)
  enc_crashes "type t = container { n: u8 = len(d) :> u8, d: u8[n] };" (VStruct "t" [("n", u8 0); ("d", u8s (repeat 7 256))]) /\
  (* arithmetic on stored values *)
  enc_crashes "type t = container { n: u8, m: u8 = n - 1 };" (VStruct "t" [("n", u8 0); ("m", u8 0)]) /\
  enc_crashes "type t = container { n: u64, b: container [n] { x: u8 } };" (VStruct "t" [("n", VInt U64 (2 ^ 63)); ("x", u8 0)]).
Proof.
  Ltac fields := repeat (constructor; [first [apply u8s_has; vm_compute; reflexivity|apply HInt; vm_compute; reflexivity|constructor; [intros ? []|cbn [List.length]; lia]]|]); constructor.
  split; [|split; [|split; [|split; [|split]]]]; (split; [vm_compute; reflexivity|]; split; [vm_compute; reflexivity|]; split; [eapply HStruct; [vm_compute; reflexivity|vm_compute; reflexivity|]; fields|intros k; vm_compute; reflexivity]).
Qed.
Print Assumptions C59_crashes_refuted.

(** C59 with a writer that fails after [room] bytes, for transforms that drop without panicking: the call still ends, with bytes written, an encoding error, or the writer's. *)
From Verif Require Import Device DeviceFacts P_Device.
Theorem C59_failing_writer_partial : forall l rf par late, compiles_list l rf = true -> enc_safe_list l rf par = true ->
  forall n ps args v, lookup n par = Some ps -> Forall2 (vhas (prog l) prelude_values) ps args -> has (prog l) prelude_values (RTNamed n) v ->
  exists depth, forall k room, (depth <= k)%nat -> match fst (run_on (writer room) (fencode prelude_world late (prog l) rf k n args v)) with
  | Full => True
  | Fin r => r <> Panic /\ r <> Hang
  end.
Proof.
  intros l rf par late C S n ps args v En Ha Hv. destruct (C59_prelude_encoder_returns_partial l rf par C S n ps args v En Ha Hv) as (d & r & E & N & M).
  exists d. intros k room Hk. specialize (E k Hk). destruct (C57_any_outcome prelude_world late (prog l) rf k n args v) as (q & o & Q & W). destruct (W room) as (out & R & O). rewrite R. cbn [fst].
  pose proof (C57_same_encoder prelude_world late (prog l) rf k n args v) as Z. rewrite E, Q in Z. cbn [fst] in Z. destruct O as [->|[-> _]]; [|exact I].
  destruct r; [injection Z as Z _; subst q; split; discriminate|injection Z as ->; split; discriminate|congruence|congruence].
Qed.
Print Assumptions C59_failing_writer_partial.
