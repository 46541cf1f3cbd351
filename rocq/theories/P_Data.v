(** Property C48: decoded values are values of the generated data types. *)
From Verif Require Import ScalarFacts ConstIntFacts PreludeFacts UtfFacts DecRef RtWf RoundTrip CoderFacts World Sample Data DataFacts.
Open Scope string_scope. Open Scope Z_scope. Open Scope list_scope.

(** The surroundings: foreign types read values of their Rust type, transforms yield plaintexts that fit in memory. *)
Definition typed_world (w : world) (F : string -> val -> Prop) : Prop :=
  (forall f vs l v rest, Z.of_nat (List.length l) < 2 ^ 63 -> w_fdec w f vs l = Ok (v, rest) -> F f v) /\
  (forall x vs l pl rest, Z.of_nat (List.length l) < 2 ^ 63 -> w_xdec w x vs l = Ok (pl, rest) -> Z.of_nat (List.length pl) < 2 ^ 63).

Lemma decoded_has w p rf F : world_suffixing w -> compiles p rf -> typed_world w F -> (forall n d, p n = Some d -> data_wf p rf n d = true) ->
  forall k n args l v rest, foreign_of p n = None -> Z.of_nat (List.length l) < 2 ^ 63 -> decode w p rf k n args l = Ok (v, rest) -> has p F (RTNamed n) v.
Proof.
  intros Sx C (HF & HX) W k n args l v rest Fo O E. rewrite (proj1 (decode_refines w p rf Sx (proj1 C) k n args l)) in E.
  eapply (sdecode_has w p rf F); try eassumption; intros f vs; apply suffixing_drops; apply Sx.
Qed.

(** C48. Whatever bytes it is given, a decoder that returns a value returns one of the generated Rust type: integers in range, declared variants, all fields present in order,
    conditional fields (and only those) optional, vectors of the element type.  Missing from the full statement: programs outside [data_wf] (see the _refuted theorems). *)
Theorem C48_decoded_values_typed_partial : forall w p rf F, world_suffixing w -> compiles p rf -> typed_world w F -> (forall n d, p n = Some d -> data_wf p rf n d = true) ->
  forall k n args l v rest, foreign_of p n = None -> Z.of_nat (List.length l) < 2 ^ 63 -> decode w p rf k n args l = Ok (v, rest) -> has p F (RTNamed n) v.
Proof. exact decoded_has. Qed.
Print Assumptions C48_decoded_values_typed_partial.

(** The prelude's foreign types: v8 ... v128 are integers, utf8 is a String. *)
Definition prelude_values (f : string) (v : val) : Prop :=
  match var_of f with
  | Some s => exists z, v = VInt s z /\ in_range s z = true
  | None => f = "utf8" /\ exists s, v = VStr s /\ Forall usv s /\ Z.of_nat (List.length (utf8_encode s)) < 2 ^ 63
  end.
Lemma varint_read_range fuel s : forall i o l z rest, in_range s o = true -> varint_read fuel s i o l = Ok (z, rest) -> in_range s z = true.
Proof.
  induction fuel as [|fuel IH]; intros i o l z rest R H; cbn [varint_read] in H; [discriminate|]. bi H x Ex. destruct x as [b r]. cbn zeta in H.
  match type of H with context [Z.lor o ?a] => set (o' := Z.lor o a) in H; assert (R' : in_range s o' = true) by (apply bitwise_range; [exact R|apply wrap_in_range]) end.
  destruct (_ <? _)%nat; [apply Ok_inj in H; injection H as <- <-; exact R'|]. destruct (_ =? 128); [eapply IH; eassumption|]. apply Ok_inj in H; injection H as <- <-; exact R'.
Qed.
Lemma read_until0_len l : forall a r, read_until0 l = (a, r) -> (List.length a <= List.length l)%nat.
Proof. induction l as [|b l IH]; cbn [read_until0]; intros a r H; [injection H as <- <-; cbn; lia|]. destruct (b =? 0); [injection H as <- <-; cbn; lia|]. destruct (read_until0 l) as [a' r']. injection H as <- <-. specialize (IH _ _ eq_refl). cbn. lia. Qed.
Lemma prelude_typed : typed_world prelude_world prelude_values.
Proof.
  split.
  - intros f vs l v rest O. cbn. unfold pw_fdec, prelude_values. destruct (var_of f) as [s|].
    + intros H. bi H x Ex. destruct x as [z r]. apply Ok_inj in H. injection H as <- <-. exists z. split; [reflexivity|]. eapply varint_read_range; [|exact Ex]. apply in_range_0.
    + destruct (String.eqb_spec f "utf8") as [->|]; [|discriminate]. intros H. split; [reflexivity|].
      assert (G : exists s n, v = VStr s /\ utf8_read n l = Ok (s, rest)).
      { destruct vs as [|x [|]]; try discriminate; [|destruct x as [sc z| | | | | | | | | | | |]; try discriminate; destruct sc; try discriminate|destruct x as [sc z| | | | | | | | | | | |]; try discriminate; destruct sc; discriminate];
          bi H y Ey; destruct y as [s r]; apply Ok_inj in H; injection H as <- <-; eauto. }
      destruct G as (s & n & -> & G). exists s. split; [reflexivity|].
      assert (T : exists t, from_utf8 t = Some s /\ (List.length t <= List.length l)%nat).
      { unfold utf8_read in G. destruct n as [n|].
        - destruct (2 ^ 63 <=? n); [discriminate|]. bi G y Ey. destruct y as [t r]. bi G s' Es. apply Ok_inj in G. injection G as <- <-. exists t. split; [destruct (from_utf8 t); [apply Ok_inj in Es; subst; reflexivity|discriminate]|].
          apply read_exact_ok in Ey as (-> & _). rewrite app_length. lia.
        - destruct (read_until0 l) as [t r] eqn:Er. bi G s' Es. apply Ok_inj in G. injection G as <- <-. apply read_until0_len in Er. match type of Es with of_opt _ (from_utf8 ?q) = _ => exists q end. split; [destruct (from_utf8 _); [apply Ok_inj in Es; subst; reflexivity|discriminate]|].
          destruct (rev t) as [|b q] eqn:Et; [lia|]. assert (List.length t = S (List.length q)) by (rewrite <- (rev_length t), Et; reflexivity). destruct (b =? 0); rewrite ?rev_length; lia. }
      destruct T as (t & T & L). destruct (from_utf8_sound _ t s (le_n _) T) as (U & <-). split; [exact U|]. lia.
  - intros x vs l pl rest O. cbn. unfold pw_xdec. destruct (String.eqb x "xor"); [|discriminate]. destruct vs as [|v [|]]; try discriminate; [|destruct v as [sc n| | | | | | | | | | | |]; try discriminate; destruct sc; discriminate].
    destruct v as [sc n| | | | | | | | | | | |]; try discriminate. destruct sc; try discriminate. intros H. apply Ok_inj in H. injection H as <- <-. unfold xor_all. rewrite map_length. exact O.
Qed.

(** C48 for programs over the prelude's foreign types, where everything assumed of the program is one decidable check. *)
Definition data_prog (l : list (string * decl)) (rf : nat) : bool := forallb (fun nd => data_wf (prog l) rf (fst nd) (snd nd)) l.
Lemma data_prog_spec l rf : data_prog l rf = true -> forall n d, prog l n = Some d -> data_wf (prog l) rf n d = true.
Proof. intros H n d E. unfold data_prog in H. rewrite forallb_forall in H. apply lookup_in_prog in E. exact (H _ E). Qed.
Theorem C48_prelude_decoded_typed_partial : forall l rf tys, prog_ok l rf (prelude_marks tys) = true -> data_prog l rf = true ->
  forall k n args b v rest, foreign_of (prog l) n = None -> Z.of_nat (List.length b) < 2 ^ 63 -> decode prelude_world (prog l) rf k n args b = Ok (v, rest) ->
    has (prog l) prelude_values (RTNamed n) v.
Proof.
  exact (fun l rf tys H D => decoded_has _ _ _ _ prelude_world_suffixing (conj (proj1 (proj2 (prog_ok_spec _ _ _ H))) (proj2 (proj2 (prog_ok_spec _ _ _ H)))) prelude_typed (data_prog_spec l rf D)).
Qed.
Print Assumptions C48_prelude_decoded_typed_partial.

(** The generated definitions for the sample program (Sample.v), and a decoded packet. *)
Example C48_nonvacuous : prog_ok sample_list 20 sample_marks = true /\ data_prog sample_list 20 = true /\
  option_map (data_of sample) (sample "Packet") = Some (Some (GStruct
    [ ("kind", RTNamed "Kind"); ("flags", RTNamed "Flags"); ("count", RTInt U16); ("data", RTVec (RTInt U16)); ("seq", RTOpt (RTInt U32)); ("bodylen", RTInt U32);
      ("name", RTForeign "utf8"); ("item", RTNamed "Item"); ("rest", RTVec (RTInt I16)); ("tail", RTVec (RTInt U8)) ])) /\
  option_map (data_of sample) (sample "Msg") = Some (Some (GTagged [("Small", inl (RTInt U16)); ("Pair", inr [("x", RTInt U8); ("y", RTNamed "Kind")]); ("Rest", inl (RTVec (RTInt U8)))])) /\
  exists v, decode prelude_world sample 20 5 "Sealed" [] [1; 0; 0; 0; 7; 9] = Ok (v, []) /\ has sample prelude_values (RTNamed "Sealed") v.
Proof.
  assert (A : prog_ok sample_list 20 sample_marks = true) by (vm_compute; reflexivity). assert (B : data_prog sample_list 20 = true) by (vm_compute; reflexivity).
  split; [exact A|]. split; [exact B|]. split; [vm_compute; reflexivity|]. split; [vm_compute; reflexivity|].
  assert (E : decode prelude_world sample 20 5 "Sealed" [] [1; 0; 0; 0; 7; 9] = Ok (VStruct "Sealed" [("key", VInt U8 1); ("box", VArr [VInt U32 16843014])], [])) by (vm_compute; reflexivity).
  exists (VStruct "Sealed" [("key", VInt U8 1); ("box", VArr [VInt U32 16843014])]). split; [exact E|].
  refine (C48_prelude_decoded_typed_partial sample_list 20 ["Sealed"; "Msg"] A B 5%nat "Sealed" [] _ _ _ eq_refl _ E). reflexivity.
Qed.
Print Assumptions C48_nonvacuous.

(** C48 fails for the programs excluded above: the generated code does not type-check. *)
Definition yes : expr := EBool true.
(** [type T = container { c: container { x: u8 { true } } { true } };]: one [Option] in the struct, two in the reader. *)
Definition nested_cond : list (string * decl) := [decl0 "T" (TCont None false [(cond "c" yes, TCont None false [(cond "x" yes, be U8)])])].
(** [type B = u8; type T = B[2];]: a vector of [B] in the struct, a vector of u8 in the reader. *)
Definition alias_array : list (string * decl) := [decl0 "B" (be U8); decl0 "T" (TArr (TRef "B" []) (LFixed (lit 2)))].
(** [type T = container { x: u8 } { true };]: the reader returns an [Option] of the struct. *)
Definition top_cond : list (string * decl) := [("T", {| d_attr := cond "T" yes; d_ty := TCont None false [(fld "x", be U8)]; d_params := [] |})].
Lemma has_named p F n v : has p F (RTNamed n) v -> match v with VStruct m fs => exists d ts, p n = Some d /\ data_of p d = Some (GStruct ts) /\ has_fields p F ts fs
  | VTup x => exists d t, p n = Some d /\ data_of p d = Some (GTuple t) /\ has p F t x | _ => True end.
Proof. intros H. inversion H; subst; try exact I; eauto. Qed.
Lemma ill_typed : 
  (exists v, decode prelude_world (prog nested_cond) 9 3 "T" [] [5] = Ok (v, []) /\ forall F, ~ has (prog nested_cond) F (RTNamed "T") v) /\
  (exists v, decode prelude_world (prog alias_array) 9 3 "T" [] [5; 6] = Ok (v, []) /\ forall F, ~ has (prog alias_array) F (RTNamed "T") v) /\
  (exists v, decode prelude_world (prog top_cond) 9 3 "T" [] [5] = Ok (v, []) /\ forall F, ~ has (prog top_cond) F (RTNamed "T") v).
Proof.
  split; [|split].
  - exists (VStruct "T" [("x", VOpt (Some (VOpt (Some (VInt U8 5)))))]). split; [vm_compute; reflexivity|]. intros F H. apply has_named in H as (d & ts & E1 & E2 & H). vm_compute in E1. apply Some_inj in E1. subst d. vm_compute in E2. injection E2 as <-.
    inversion H as [|? ? ? ? ? H1 _]; subst. inversion H1 as [| | | | | |? ? H2| | | | | | |]; subst. inversion H2.
  - exists (VTup (u8s [5; 6])). split; [vm_compute; reflexivity|]. intros F H. apply has_named in H as (d & t & E1 & E2 & H). vm_compute in E1. apply Some_inj in E1. subst d. vm_compute in E2. injection E2 as <-.
    inversion H as [| | | |? ? H1 _| | | | | | | | |]; subst. specialize (H1 _ (or_introl eq_refl)). inversion H1.
  - exists (VOpt (Some (VStruct "T" [("x", VInt U8 5)]))). split; [vm_compute; reflexivity|]. intros F H. inversion H.
Qed.
Theorem C48_mismatched_types_refuted :
  (exists v, decode prelude_world (prog nested_cond) 9 3 "T" [] [5] = Ok (v, []) /\ forall F, ~ has (prog nested_cond) F (RTNamed "T") v) /\
  (exists v, decode prelude_world (prog alias_array) 9 3 "T" [] [5; 6] = Ok (v, []) /\ forall F, ~ has (prog alias_array) F (RTNamed "T") v) /\
  (exists v, decode prelude_world (prog top_cond) 9 3 "T" [] [5] = Ok (v, []) /\ forall F, ~ has (prog top_cond) F (RTNamed "T") v).
Proof. exact ill_typed. Qed.
Print Assumptions C48_mismatched_types_refuted.
