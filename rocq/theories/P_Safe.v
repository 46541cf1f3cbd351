(** Property C49: whatever bytes it is given, a decoder returns. *)
From Verif Require Import ScalarFacts ConstIntFacts PreludeFacts UtfFacts DecRef RtWf RoundTrip CoderFacts World Sample Data DataFacts Safe SafeFacts SafeDec.
From Verif Require Import P_Coder P_Data P_Lengths.
Open Scope string_scope. Open Scope Z_scope. Open Scope list_scope.

(** What is assumed of the surroundings: with the arguments [sg] allows, foreign types and transforms return a value or an error. *)
Definition safe_world (w : world) (p : program) (F : string -> val -> Prop) (sg : sig) : Prop :=
  typed_world w F /\
  (forall f vs l v rest, sg_eat sg f = true -> w_fdec w f vs l = Ok (v, rest) -> (List.length rest < List.length l)%nat) /\
  (forall f s v, sg_int sg f = Some s -> F f v -> exists z, v = VInt s z /\ in_range s z = true) /\
  (forall f h v, sg_len sg f = Some h -> F f v -> exists z, vlen v = Ok (VInt U64 z) /\ 0 <= z <= h) /\
  (forall f ats vs l, sg_f sg f ats = true -> Forall2 (vhas p F) ats vs -> Z.of_nat (List.length l) < 2 ^ 63 -> w_fdec w f vs l <> Panic /\ w_fdec w f vs l <> Hang) /\
  (forall x ats vs l, sg_x sg x ats = true -> Forall2 (vhas p F) ats vs -> Z.of_nat (List.length l) < 2 ^ 63 -> w_xdec w x vs l <> Panic /\ w_xdec w x vs l <> Hang).
(** Every annotated declaration passes the check. *)
Definition safe_prog (w : world) (p : program) (rf : nat) (sg : sig) (ann : string -> option annot) : Prop :=
  forall n a, ann n = Some a -> exists d, p n = Some d /\ foreign_of p n = None /\ decl_safe p rf (w_fty w) sg ann a d = true.

Lemma okerr_not {A} (r : res ioerr A) : okerr r <-> r <> Panic /\ r <> Hang.
Proof. destruct r; cbn; split; try tauto; try (intros (H & H'); congruence); intros _; split; discriminate. Qed.
Lemma decoder_returns w p rf F sg ann : world_suffixing w -> compiles p rf -> safe_world w p F sg -> (forall n d, p n = Some d -> data_wf p rf n d = true) -> safe_prog w p rf sg ann ->
  forall n a args l, ann n = Some a -> Forall2 (vhas p F) (an_par a) args -> Z.of_nat (List.length l) < 2 ^ 63 ->
  exists depth r, (forall k, (depth <= k)%nat -> decode w p rf k n args l = r) /\ r <> Panic /\ r <> Hang.
Proof.
  intros Sx C ((HF & HX) & He & Hi & Hl & Hsf & Hsx) W P n a args l Ea Hv O.
  assert (Hx : forall x vs, drops false (w_xdec w x vs)) by (intros; apply suffixing_drops; apply Sx).
  assert (Hf : forall f vs, drops (sg_eat sg f) (w_fdec w f vs)).
  { intros f vs. destruct (sg_eat sg f) eqn:E; [|apply suffixing_drops; apply Sx]. intros l0 v r E0. cbn [Nat.b2n]. specialize (He f vs l0 v r E E0). lia. }
  assert (Hsf' : forall f ats vs l, sg_f sg f ats = true -> Forall2 (vhas p F) ats vs -> okl l -> okerr (w_fdec w f vs l)) by (intros; apply okerr_not; eapply Hsf; eassumption).
  assert (Hsx' : forall f ats vs l, sg_x sg f ats = true -> Forall2 (vhas p F) ats vs -> okl l -> okerr (w_xdec w f vs l)) by (intros; apply okerr_not; eapply Hsx; eassumption).
  destruct (sdecode_halts w p rf F sg ann Hf Hx HF HX W Hi Hl Hsf' Hsx' P n a args l Ea Hv O) as (K & G1 & G2). exists K, (sdecode w p rf K n args l). apply okerr_not in G1. split; [|exact G1].
  intros k Hk. rewrite (proj1 (decode_refines w p rf Sx (proj1 C) k n args l)). apply G2. exact Hk.
Qed.

(** C49. Whatever bytes it is given, the decoder of a type that passes the check in Safe.v returns a value or an error: it does not panic and does not loop.  [depth] is how deep
    it recurses; with a stack that deep, the answer is always the same.  Missing from the full statement: programs outside the check (see C49_crashes_refuted). *)
Theorem C49_decoder_returns_partial : forall w p rf F sg ann, world_suffixing w -> compiles p rf -> safe_world w p F sg -> (forall n d, p n = Some d -> data_wf p rf n d = true) -> safe_prog w p rf sg ann ->
  forall n a args l, ann n = Some a -> Forall2 (vhas p F) (an_par a) args -> Z.of_nat (List.length l) < 2 ^ 63 ->
  exists depth r, (forall k, (depth <= k)%nat -> decode w p rf k n args l = r) /\ r <> Panic /\ r <> Hang.
Proof. exact decoder_returns. Qed.
Print Assumptions C49_decoder_returns_partial.

(** The prelude: varints and xor always return; utf8 does if its length is below 2^63. *)
Definition prelude_sig : sig := {|
  sg_f := fun f ats => match var_of f with
    | Some _ => true
    | None => String.eqb f "utf8" && match ats with [] => true | [AInt U64 lo hi] => hi <? 2 ^ 63 | _ => false end
    end;
  sg_x := fun x ats => String.eqb x "xor" && match ats with [AInt U8 _ _] => true | _ => false end;
  sg_eat := fun f => is_some (var_of f);
  sg_int := var_of;
  sg_len := fun f => if String.eqb f "utf8" then Some (2 ^ 63 - 1) else None |}.
Lemma varint_end_le s : (varint_end s <= 30)%nat. Proof. destruct s; vm_compute; lia. Qed.
Lemma varint_okerr s : forall fuel i o l, (varint_end s < fuel + i)%nat -> (i <= varint_end s)%nat -> okerr (varint_read fuel s i o l).
Proof.
  induction fuel as [|fuel IH]; intros i o l H Hi; cbn [varint_read]; [lia|].
  apply okerr_bind; [apply read_exact_okerr|]. intros [b r] _. cbn zeta. destruct (Nat.ltb_spec (varint_end s) (S i)); [exact I|]. destruct (_ =? 128); [|exact I]. apply IH; lia.
Qed.
Lemma varint_eats s : forall fuel i o l z r, varint_read fuel s i o l = Ok (z, r) -> (List.length r < List.length l)%nat.
Proof.
  induction fuel as [|fuel IH]; intros i o l z r H; cbn [varint_read] in H; [discriminate|]. bi H x Ex. destruct x as [b r1]. apply read_exact_ok in Ex as (-> & Eb). rewrite app_length. cbn zeta in H.
  destruct (_ <? _)%nat; [apply Ok_inj in H; injection H as <- <-; lia|]. destruct (_ =? 128); [apply IH in H; lia|apply Ok_inj in H; injection H as <- <-; lia].
Qed.
Lemma prelude_safe p : safe_world prelude_world p prelude_values prelude_sig.
Proof.
  split; [exact prelude_typed|]. split; [|split; [|split; [|split]]].
  - intros f vs l v rest E. cbn in *. unfold pw_fdec. destruct (var_of f) as [s|]; [|discriminate]. intros H. bi H x Ex. destruct x as [z r]. apply Ok_inj in H. injection H as <- <-. eapply varint_eats; exact Ex.
  - intros f s v E. cbn in E. unfold prelude_values. rewrite E. auto.
  - intros f h v E. cbn -[Z.pow] in E. destruct (String.eqb_spec f "utf8") as [->|]; [|discriminate]. injection E as <-. unfold prelude_values. change (var_of "utf8") with (@None scalar). cbv iota. intros (_ & s & -> & _ & B). cbn [vlen]. eexists. split; [reflexivity|]. lia.
  - intros f ats vs l E Hv O. apply okerr_not. cbn -[Z.pow] in *. unfold pw_fdec. destruct (var_of f) as [s|].
    + apply okerr_bind; [|intros [z r] _; exact I]. unfold varint_decode. pose proof (varint_end_le s). apply varint_okerr; lia.
    + destruct (String.eqb f "utf8"); [|discriminate]. cbn [andb] in E.
      assert (U : forall n, match n with Some z => z < 2 ^ 63 | None => True end -> okerr (let! (s, l) := utf8_read n l in Ok (VStr s, l))).
      { intros n Hn. apply okerr_bind; [|intros [s r] _; exact I]. unfold utf8_read. destruct n as [z|].
        - destruct (Z.leb_spec (2 ^ 63) z); [lia|]. apply okerr_bind; [apply read_exact_okerr|]. intros [t r] _. destruct (from_utf8 t); exact I.
        - destruct (read_until0 l) as [t r]. destruct (from_utf8 _); exact I. }
      destruct Hv as [|a v ats vs Ha Hv]; [apply (U None); exact I|]. destruct a as [s lo hi|]; [|discriminate]. destruct s; try discriminate. destruct Hv; [|discriminate]. apply Z.ltb_lt in E. destruct Ha as (z & -> & _ & B). apply (U (Some z)). lia.
  - intros x ats vs l E Hv O. apply okerr_not. cbn in *. unfold pw_xdec. destruct (String.eqb x "xor"); [|discriminate]. cbn [andb] in E. destruct Hv as [|a v ats vs Ha Hv]; [discriminate|]. destruct a as [s lo hi|]; [|discriminate]. destruct s; try discriminate. destruct Hv; [|discriminate].
    destruct Ha as (z & -> & _). exact I.
Qed.

(** C49 over the prelude, with everything assumed of the program one decidable check. *)
Definition safe_list (l : list (string * decl)) (rf : nat) (ann : list (string * annot)) : bool :=
  forallb (fun na => match prog l (fst na) with Some d => negb (is_some (foreign_of (prog l) (fst na))) && decl_safe (prog l) rf prelude_fty prelude_sig (fun n => lookup n ann) (snd na) d | None => false end) ann.
Lemma safe_list_spec l rf ann : safe_list l rf ann = true -> safe_prog prelude_world (prog l) rf prelude_sig (fun n => lookup n ann).
Proof.
  intros H n a E. apply lookup_some_in in E. unfold safe_list in H. rewrite forallb_forall in H. specialize (H _ E). cbn [fst snd] in H. destruct (prog l n) as [d|]; [|discriminate]. apply andb_true_iff in H as (H1 & H2). exists d. split; [reflexivity|]. split; [|exact H2].
  destruct (foreign_of (prog l) n); [discriminate|reflexivity].
Qed.
Theorem C49_prelude_decoder_returns_partial : forall l rf tys ann, prog_ok l rf (prelude_marks tys) = true -> data_prog l rf = true -> safe_list l rf ann = true ->
  forall n a args b, lookup n ann = Some a -> Forall2 (vhas (prog l) prelude_values) (an_par a) args -> Z.of_nat (List.length b) < 2 ^ 63 ->
  exists depth r, (forall k, (depth <= k)%nat -> decode prelude_world (prog l) rf k n args b = r) /\ r <> Panic /\ r <> Hang.
Proof.
  exact (fun l rf tys ann H D S => decoder_returns _ _ _ _ _ _ prelude_world_suffixing (proj2 (prog_ok_compiles _ _ _ H)) (prelude_safe _) (data_prog_spec l rf D) (safe_list_spec l rf ann S)).
Qed.
Print Assumptions C49_prelude_decoder_returns_partial.

(** The sample program passes; so does what the compiler makes of this text, with a recursive type, computed lengths and padding. *)
Definition an (r : nat) (e : bool) (ps : list aty) : annot := {| an_rank := r; an_eat := e; an_par := ps |}.
Definition sample_ann : list (string * annot) :=
  [("Kind", an 0 true []); ("Flags", an 0 true []); ("Item", an 1 true [afull U8]); ("Packet", an 2 true []); ("Sealed", an 1 true []); ("Msg", an 2 false [afull U8])].
Definition tree_text : string :=
  "import_ffi pad as function; import_ffi utf8 as type; import_ffi v32 as type; type kind = enum u8 { end = 0, leaf = 1, pair = 2 }; type tree = container { k: kind, l: tree {k == kind::pair}, r: tree {k == kind::pair}, n: u16 {k == kind::leaf} }; type msg = container { n: u16, body: container [n] { name: utf8, id: v32, words: u32[..] }, sizes: u8[(n % 4) + 1], forest: tree[n / 100], .pad: pad(4, n) };".
Definition program_of (text : string) : list (string * decl) := match compiled text with Some l => l | None => [] end.
Definition tree_ann : list (string * annot) := [("kind", an 0 true []); ("tree", an 1 true []); ("msg", an 2 true [])].
Example C49_nonvacuous :
  (prog_ok sample_list 20 sample_marks = true /\ data_prog sample_list 20 = true /\ safe_list sample_list 20 sample_ann = true) /\
  (prog_ok (program_of tree_text) 20 (prelude_marks []) = true /\ data_prog (program_of tree_text) 20 = true /\ safe_list (program_of tree_text) 20 tree_ann = true) /\
  (forall b, Z.of_nat (List.length b) < 2 ^ 63 -> exists depth r, (forall k, (depth <= k)%nat -> decode prelude_world (prog (program_of tree_text)) 20 k "msg" [] b = r) /\ r <> Panic /\ r <> Hang) /\
  (exists v, decode prelude_world (prog (program_of tree_text)) 20 9 "msg" [] [0; 104; 65; 0; 5] = Err EEof /\ decode prelude_world (prog (program_of tree_text)) 20 9 "tree" [] [2; 1; 0; 7; 0] = Ok (v, [])).
Proof.
  assert (A : prog_ok (program_of tree_text) 20 (prelude_marks []) = true) by (vm_compute; reflexivity). assert (B : data_prog (program_of tree_text) 20 = true) by (vm_compute; reflexivity).
  assert (C : safe_list (program_of tree_text) 20 tree_ann = true) by (vm_compute; reflexivity).
  split; [split; [vm_compute; reflexivity|]; split; vm_compute; reflexivity|]. split; [auto|]. split.
  - intros b O. exact (C49_prelude_decoder_returns_partial _ 20 [] tree_ann A B C "msg" (an 2 true []) [] b eq_refl (Forall2_nil _) O).
  - pose (kd := {| en_name := "kind"; en_rep := u8be; en_items := [("end", Some 0); ("leaf", Some 1); ("pair", Some 2)] |}).
    pose (tr := fun k l r n => VStruct "tree" [("k", VEnum kd (VNamed k)); ("l", VOpt l); ("r", VOpt r); ("n", VOpt n)]).
    exists (tr "pair" (Some (tr "leaf" None None (Some (VInt U16 7)))) (Some (tr "end" None None None)) None). split; vm_compute; reflexivity.
Qed.
Print Assumptions C49_nonvacuous.

(** C49 fails for the programs the check excludes.  All of these are accepted, and generate code that type-checks; an input makes the decoder panic or never return. *)
Definition crashes (text : string) (b : list Z) (r : res ioerr (val * list Z)) : Prop :=
  (r = Panic \/ r = Hang) /\ prog_ok (program_of text) 20 (prelude_marks ["t"]) = true /\ data_prog (program_of text) 20 = true /\
  is_some (prog (program_of text) "t") = true /\ forall k, decode prelude_world (prog (program_of text)) 20 (S (S k)) "t" [] b = r.
Lemma loops : crashes "type t = container { x: t };" [1; 2; 3] Hang.
Proof.
  split; [auto|]. split; [vm_compute; reflexivity|]. split; [vm_compute; reflexivity|]. split; [vm_compute; reflexivity|]. set (l := program_of _).
  assert (O : prog_ok l 20 (prelude_marks ["t"]) = true) by (vm_compute; reflexivity). intros k. rewrite (proj1 (decode_refines prelude_world (prog l) 20 prelude_world_suffixing (proj1 (proj2 (prog_ok_compiles _ _ _ O))) _ _ _ _)).
  assert (E : forall k b, sdecode prelude_world (prog l) 20 k "t" [] b = Hang); [|apply E]. clear k O. intros k. vm_compute in l. subst l. induction k as [|k IH]; intros b; [reflexivity|]. cbn. rewrite IH. reflexivity.
Qed.
Theorem C49_crashes_refuted :
  (* a length field that counts more bytes than an allocation can have *)
  crashes "type t = container { n: u64, d: u8[n] };" [255; 255; 255; 255; 255; 255; 255; 255] Panic /\
  crashes "import_ffi utf8 as type; type t = container { n: u64, s: utf8(n) };" [128; 0; 0; 0; 0; 0; 0; 0] Panic /\
  (* arithmetic on decoded values *)
  crashes "type t = container { n: u8, d: u8[n - 1] };" [0] Panic /\
  crashes "type t = container { n: u8, d: u8[100 / n] };" [0] Panic /\
  (* a type that contains itself unconditionally; elements of no bytes; input that ends within a terminator *)
  crashes "type t = container { x: t };" [1; 2; 3] Hang /\
  crashes "type e = container { }; type t = container { es: e[..] };" [1] Hang /\
  crashes "type t = container { s: u8[.. ""ab""] };" [97] Hang.
Proof.
  split; [|split; [|split; [|split; [|split; [exact loops|split]]]]]; (split; [auto|]; split; [vm_compute; reflexivity|]; split; [vm_compute; reflexivity|]; split; [vm_compute; reflexivity|]; intros k; vm_compute; reflexivity).
Qed.
Print Assumptions C49_crashes_refuted.
