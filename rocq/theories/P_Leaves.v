(** Property C65: decoded values are not larger than their input. *)
From Verif Require Import ScalarFacts PreludeFacts UtfFacts DecRef EncRef RtWf RoundTrip World Sample CoderFacts Base64 Base64Facts P_Coder P_Lengths P_Safe Leaves.
From Coq Require Import Lia.
Open Scope string_scope. Open Scope Z_scope. Open Scope list_scope.

(** C65. The numbers, booleans, enum values, flag sets and characters in a decoded value are at most as many as the bytes taken from the input: for every program, and every world whose transforms do not expand. *)
Theorem C65_no_larger : forall w p rf, world_suffixing w -> small_world w -> compiles p rf ->
  forall k n args l v rest, decode w p rf k n args l = Ok (v, rest) -> (leaves v + List.length rest <= List.length l)%nat.
Proof. intros w p rf Hw Hs C k n args l v rest E. rewrite (proj1 (decode_refines w p rf Hw (proj1 C) k n args l)) in E. exact (sdecode_small w p rf Hs k n args _ _ _ E). Qed.
Print Assumptions C65_no_larger.

Lemma utf8_short : forall n l s, (List.length l <= n)%nat -> from_utf8 l = Some s -> (List.length s <= List.length l)%nat.
Proof.
  induction n as [|n IH]; intros l s L E; [destruct l; [injection E as <-; cbn; lia|cbn in L; lia]|]. destruct l as [|b0 l0]; [injection E as <-; cbn; lia|]. cbn [from_utf8 List.length] in *.
  assert (K : forall c l' s, (List.length l' <= List.length l0)%nat -> match from_utf8 l' with Some r => Some (c :: r) | None => None end = Some s -> (List.length s <= S (List.length l0))%nat).
  { intros c l' s0 L' E'. destruct (from_utf8 l') as [r|] eqn:Er; [|discriminate E']. injection E' as <-. apply IH in Er; [|lia]. cbn [List.length]. lia. }
  destruct (_ && _); [apply (K _ _ _ (le_n _) E)|]. destruct l0 as [|b1 l1]; [discriminate E|]. destruct (_ && _); [destruct (cont b1); [|discriminate E]; refine (K _ _ _ _ E); cbn; lia|].
  destruct l1 as [|b2 l2]; [discriminate E|]. destruct (_ && _); [destruct (_ && _); [|discriminate E]; destruct (_ && _); [|discriminate E]; refine (K _ _ _ _ E); cbn; lia|].
  destruct l2 as [|b3 l3]; [discriminate E|]. destruct (_ && _); [|discriminate E]. destruct (_ && _); [|discriminate E]. destruct (_ && _); [|discriminate E]. refine (K _ _ _ _ E); cbn; lia.
Qed.
Lemma until0_all l a r : read_until0 l = (a, r) -> List.length l = (List.length a + List.length r)%nat.
Proof.
  revert a r. induction l as [|b l IH]; cbn [read_until0]; intros a r H; [injection H as <- <-; reflexivity|]. destruct (b =? 0); [injection H as <- <-; reflexivity|]. destruct (read_until0 l) as [a' r'] eqn:E. injection H as <- <-. cbn. rewrite (IH _ _ eq_refl). reflexivity.
Qed.
Lemma utf8_read_small o l s rest : utf8_read o l = Ok (s, rest) -> (List.length s + List.length rest <= List.length l)%nat.
Proof.
  unfold utf8_read. destruct o as [n|].
  - destruct (_ <=? n); [discriminate|]. intros E. bi E y Ey. destruct y as [t r]. bi E q Eqq. apply Ok_inj in E. injection E as <- <-. apply read_exact_ok in Ey as (-> & L). rewrite app_length.
    destruct (from_utf8 t) as [u|] eqn:F; [|discriminate Eqq]. apply Ok_inj in Eqq. subst u. apply (utf8_short (List.length t)) in F; lia.
  - destruct (read_until0 l) as [t r] eqn:Et. apply until0_all in Et. intros E. bi E q Eqq. apply Ok_inj in E. injection E as <- <-. cbv zeta in Eqq.
    assert (T : exists t', from_utf8 t' = Some q /\ (List.length t' <= List.length t)%nat).
    { match type of Eqq with of_opt _ (from_utf8 ?t') = _ => exists t'; destruct (from_utf8 t') as [u|]; [|discriminate Eqq] end. apply Ok_inj in Eqq. subst u. split; [reflexivity|]. rewrite <- (rev_length t). destruct (rev t) as [|b r0] eqn:Er; [rewrite <- (rev_involutive t), Er; cbn; lia|].
      destruct (b =? 0); [rewrite rev_length; cbn; lia|]. rewrite <- Er, rev_length. lia. }
    destruct T as (t' & F & L). apply (utf8_short (List.length t')) in F; lia.
Qed.
Lemma pw_fdec_small f vs : small leaves (pw_fdec f vs).
Proof.
  intros l v rest E. unfold pw_fdec in E. destruct (var_of f) as [s|].
  - bi E y Ey. destruct y as [z r]. apply Ok_inj in E. injection E as <- <-. apply varint_eats in Ey. cbn [leaves]. lia.
  - destruct (String.eqb f "utf8"); [|discriminate E]. destruct vs as [|[[] n| | | | | | | | | | | |] [|]]; try discriminate E; bi E y Ey; destruct y as [s r]; apply Ok_inj in E; injection E as <- <-; apply utf8_read_small in Ey; exact Ey.
Qed.
Lemma pw_xdec_small x vs : small (@List.length Z) (pw_xdec x vs).
Proof. intros l v rest E. unfold pw_xdec in E. destruct (String.eqb x "xor"); [|discriminate E]. destruct vs as [|[[] n| | | | | | | | | | | |] [|]]; try discriminate E. apply Ok_inj in E. injection E as <- <-. unfold xor_all. rewrite map_length. cbn. lia. Qed.
Theorem prelude_world_small : small_world prelude_world.
Proof. split; [exact pw_fdec_small|exact pw_xdec_small]. Qed.
(** With the shipped base64 transform. *)
Lemma b64_short strict : forall n l d, (List.length l <= n)%nat -> b64_decode strict l = Some d -> (List.length d <= List.length l)%nat.
Proof.
  induction n as [|n IH]; intros l d L E; [destruct l; [injection E as <-; cbn; lia|cbn in L; lia]|]. destruct l as [|a [|b [|c [|e r]]]]; cbn [b64_decode] in E; cbn [List.length] in *;
    repeat (match type of E with (match ?x with _ => _ end) = _ => destruct x eqn:? end; try discriminate E); try discriminate E; injection E as <-; cbn [List.length]; try lia.
  all: try (match goal with H : b64_decode _ _ = Some _ |- _ => apply IH in H; [|lia] end; lia).
Qed.
Theorem b64_world_small strict : small_world (b64_world strict).
Proof.
  split; [exact pw_fdec_small|]. intros x vs l v rest E. cbn [b64_world w_xdec] in E. destruct (String.eqb x "base64"); [|exact (pw_xdec_small _ _ _ _ _ E)]. destruct vs; [|discriminate E].
  destruct (b64_decode strict l) as [d|] eqn:D; [|discriminate E]. apply Ok_inj in E. injection E as <- <-. apply (b64_short strict (List.length l)) in D; cbn; lia.
Qed.
Theorem C65_shipped_no_larger : forall l rf mk, prog_ok l rf mk = true -> forall strict k n args bytes v rest,
  (decode prelude_world (prog l) rf k n args bytes = Ok (v, rest) -> (leaves v + List.length rest <= List.length bytes)%nat) /\
  (decode (b64_world strict) (prog l) rf k n args bytes = Ok (v, rest) -> (leaves v + List.length rest <= List.length bytes)%nat).
Proof.
  intros l rf mk O strict k n args bytes v rest. destruct (prog_ok_compiles _ _ _ O) as [_ C].
  split; intros E; [exact (C65_no_larger _ _ _ prelude_world_suffixing prelude_world_small C _ _ _ _ _ _ E)|exact (C65_no_larger _ _ _ (b64_world_suffixing strict) (b64_world_small strict) C _ _ _ _ _ _ E)].
Qed.
Print Assumptions C65_shipped_no_larger.

(** The number of elements is not bounded by the input: an array of elements that take no bytes is as long as its length field says.  Four bytes of input, any number of elements. *)
Definition blank_text : string := "type blank = container { }; type blanks = container { n: u32, l: blank[n] };".
Definition blanks : program := prog (program_of blank_text).
Lemma blanks_ok : prog_ok (program_of blank_text) 20 (prelude_marks []) = true.
Proof. vm_compute. reflexivity. Qed.
Definition blank : val := VStruct "blank" [].
Lemma blank_step k b : sdecode prelude_world blanks 20 (S k) "blank" [] b = Ok (blank, b).
Proof.
  cbn [sdecode]. set (d := blanks "blank"). vm_compute in d. subst d. cbn [of_some bind d_params bind_params]. generalize (sdecode prelude_world blanks 20 k). intros rec. unfold sd_top. cbn [d_attr fld fa_xs rev d_ty map].
  cbn -[read_exact blanks]. reflexivity.
Qed.
Lemma blank_times k : forall n b, sd_times (fun l => sdecode prelude_world blanks 20 (S k) "blank" [] l) n b = Ok (repeat blank n, b).
Proof. induction n as [|n IH]; intros b; [reflexivity|]. cbn [sd_times]. rewrite blank_step. cbn [bind]. rewrite IH. reflexivity. Qed.
Lemma blanks_step k n b : 0 <= n < 2 ^ 32 -> sdecode prelude_world blanks 20 (S (S k)) "blanks" [] (scalar_bytes u32be n ++ b) = Ok (VStruct "blanks" [("n", VInt U32 n); ("l", VArr (repeat blank (Z.to_nat n)))], b).
Proof.
  intros Hn. remember (S k) as k1 eqn:Hk. cbn [sdecode]. set (d := blanks "blanks"). vm_compute in d. subst d. cbn [of_some bind d_params bind_params]. pose proof (blank_times k) as T. rewrite <- Hk in T. revert T. generalize (sdecode prelude_world blanks 20 k1). intros rec T. unfold sd_top. cbn [d_attr fld fa_xs rev d_ty map].
  assert (R : in_range (es_scalar u32be) n = true) by (unfold in_range, min_of, max_of; apply andb_true_iff; cbn; lia).
  assert (P : sd_prim (PScalar u32be) (scalar_bytes u32be n ++ b) = Ok (VInt U32 n, b)).
  { unfold sd_prim. rewrite read_exact_app by (apply scalar_bytes_length). cbn [bind prim_of]. rewrite scalar_of_bytes_bytes by exact R. reflexivity. }
  assert (K : cap (n mod 18446744073709551616) = Ok (Z.to_nat n)).
  { rewrite Z.mod_small by lia. unfold cap. replace (0 <=? n) with true by (symmetry; apply Z.leb_le; lia). replace (n <? 2 ^ 63) with true by (symmetry; apply Z.ltb_lt; lia). reflexivity. }
  cbn -[read_exact blanks scalar_of_bytes scalar_bytes sd_prim]. fold u32be. rewrite P. cbn -[blanks].
  set (f := blanks "blank"). vm_compute in f. subst f. cbn -[Z.to_nat cap]. rewrite K. cbn -[Z.to_nat]. rewrite T. reflexivity.
Qed.
Theorem C65_elements_refuted : forall n, 0 <= n < 2 ^ 32 -> exists b v, List.length b = 4%nat /\ decode prelude_world blanks 20 2 "blanks" [] b = Ok (VStruct "blanks" [("n", VInt U32 n); ("l", VArr v)], []) /\ List.length v = Z.to_nat n.
Proof.
  intros n Hn. exists (scalar_bytes u32be n), (repeat blank (Z.to_nat n)). split; [apply scalar_bytes_length|]. split; [|apply repeat_length].
  assert (C : compiles blanks 20) by exact (proj2 (prog_ok_compiles _ _ _ blanks_ok)). rewrite (proj1 (decode_refines prelude_world blanks 20 prelude_world_suffixing (proj1 C) 2 _ _ _)).
  rewrite <- (app_nil_r (scalar_bytes u32be n)) at 1. apply (blanks_step 0 n [] Hn).
Qed.
Print Assumptions C65_elements_refuted.
Example C65_nonvacuous : small_world prelude_world /\ compiles sample 20 /\ leaves packet = 16%nat /\
  (exists b, encode prelude_world sample 20 9 "Packet" [] packet = Ok b /\ List.length b = 35%nat) /\ leaves (VStr [104; 233]) = 2%nat /\ leaves (VArr [blank; blank]) = 0%nat.
Proof.
  split; [exact prelude_world_small|]. split; [exact (proj2 (prog_ok_compiles _ _ _ sample_ok))|]. split; [vm_compute; reflexivity|]. split; [eexists; split; vm_compute; reflexivity|]. split; reflexivity.
Qed.
Print Assumptions C65_nonvacuous.
