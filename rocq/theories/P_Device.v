(** Property C57: encoding to a writer that fails. *)
From Verif Require Import Base Scalar EnumBits Expr Asg Gen Decode Encode Device DeviceFacts PreludeFacts DecRef EncRef RtWf RoundTrip CoderFacts World Base64 Base64Facts P_Coder P_Lengths P_Safe P_Base64 Sample P_Pipeline.
From Coq Require Import Lia.
Open Scope string_scope. Open Scope Z_scope. Open Scope list_scope.

(** A new writer that takes [k] bytes and then fails. *)
Definition writer (k : nat) : dev := {| got := []; room := Some k |}.
(** One that never fails. *)
Definition good_writer : dev := {| got := []; room := None |}.
(** How the call ended, and what the writer had received by then. *)
Definition run_on (d : dev) (m : D unit) : fout unit * list Z := (fst (m d), got (snd (m d))).
Definition report_all (late : string -> list val -> list Z -> nat) : Prop := forall x vs l, late x vs l = 0%nat.

Lemma writer_at k : writer k = dev_at (Some k) []. Proof. unfold writer, dev_at. cbn. rewrite firstn_nil, Nat.sub_0_r. reflexivity. Qed.
Lemma prefix_ok w late p rf fuel n args v b k : encode w p rf fuel n args v = Ok b ->
  exists out, run_on (writer k) (fencode w late p rf fuel n args v) = (out, firstn k b) /\ (out = Fin (Ok tt) \/ (out = Full /\ (k < List.length b)%nat)) /\
    (report_all late -> (k < List.length b)%nat -> out = Full).
Proof.
  intros E. pose proof (encode_post w late p rf fuel (Some k) n args v []) as H. rewrite E in H. destruct H as (o & u & Eo & H). cbn [app] in *. subst o. rewrite <- writer_at in H. unfold run_on. destruct H as [[H X]|[H O]]; rewrite H; cbn [fst snd got dev_at clip].
  - destruct u. eexists. split; [reflexivity|]. split; [left; reflexivity|]. intros L G. exfalso. specialize (X L (Nat.le_0_l k)). cbn in X. lia.
  - exists Full. split; [reflexivity|]. split; [right; split; [reflexivity|exact O]|]. reflexivity.
Qed.
(** C57. When a value has an encoding [b], a writer that takes [k] bytes receives exactly the first [k] bytes of [b]; if all of [b] fits the call succeeds; if it does not and no transform holds
    output back until it is dropped, the writer's error is returned. *)
Theorem C57_prefix : forall w late p rf fuel n args v b k, encode w p rf fuel n args v = Ok b ->
  exists out, run_on (writer k) (fencode w late p rf fuel n args v) = (out, firstn k b) /\ ((List.length b <= k)%nat -> out = Fin (Ok tt)).
Proof. exact (fun w late p rf fuel n args v b k E => match prefix_ok w late p rf fuel n args v b k E with ex_intro _ out (conj A (conj B _)) => ex_intro _ out (conj A (fun L => match B with or_introl B => B | or_intror (conj _ B) => False_ind _ (Nat.lt_irrefl _ (Nat.lt_le_trans _ _ _ B L)) end)) end). Qed.
Print Assumptions C57_prefix.
Theorem C57_reported : forall w late p rf fuel n args v b k, report_all late -> encode w p rf fuel n args v = Ok b ->
  run_on (writer k) (fencode w late p rf fuel n args v) = if (List.length b <=? k)%nat then (Fin (Ok tt), b) else (Full, firstn k b).
Proof.
  intros w late p rf fuel n args v b k R E. destruct (prefix_ok w late p rf fuel n args v b k E) as (out & A & B & C). rewrite A. destruct (Nat.leb_spec (List.length b) k) as [L|L].
  - rewrite firstn_all2 by exact L. destruct B as [->|[_ B]]; [reflexivity|lia].
  - rewrite (C R L). reflexivity.
Qed.
Print Assumptions C57_reported.
(** Whatever way the encoding ends - success, an error, a panic, or never - a limited writer has received a prefix of what a good one receives, and the call ends the same way or, if that was too
    much for the writer, perhaps with its error. *)
Theorem C57_any_outcome : forall w late p rf fuel n args v, exists r o, run_on good_writer (fencode w late p rf fuel n args v) = (Fin r, o) /\
  forall k, exists out, run_on (writer k) (fencode w late p rf fuel n args v) = (out, firstn k o) /\ (out = Fin r \/ (out = Full /\ (k < List.length o)%nat)).
Proof.
  intros w late p rf fuel n args v. destruct (fencode_uni w late p rf fuel n args v) as (r & o & H). exists r, o. split.
  - destruct (H None []) as [E|[_ []]]. change (dev_at None []) with good_writer in E. unfold run_on. rewrite E. reflexivity.
  - intros k. unfold run_on. rewrite writer_at. destruct (H (Some k) []) as [E|[E O]]; rewrite E; cbn [fst snd app got dev_at clip]; eexists; split; try reflexivity; auto.
Qed.
Print Assumptions C57_any_outcome.
(** With a good writer this is the encoder of C31 and the others. *)
Theorem C57_same_encoder : forall w late p rf fuel n args v, match encode w p rf fuel n args v with
  | Ok b => run_on good_writer (fencode w late p rf fuel n args v) = (Fin (Ok tt), b)
  | Err e => fst (run_on good_writer (fencode w late p rf fuel n args v)) = Fin (Err e)
  | Panic => fst (run_on good_writer (fencode w late p rf fuel n args v)) = Fin Panic
  | Hang => fst (run_on good_writer (fencode w late p rf fuel n args v)) = Fin Hang
  end.
Proof.
  intros w late p rf fuel n args v. pose proof (encode_post w late p rf fuel None n args v []) as H. change (dev_at None []) with good_writer in H. unfold run_on. destruct (encode w p rf fuel n args v); cbn [post fst] in *.
  - destruct H as (o & u & Eo & [[H _]|[_ []]]). cbn [app] in *. subst o. rewrite H. destruct u. reflexivity.
  - destruct H as [H|[_ H]]; [exact H|congruence].
  - destruct H as [H|[_ H]]; [exact H|congruence].
  - destruct H as [H|[_ H]]; [exact H|congruence].
Qed.
Print Assumptions C57_same_encoder.
(** A protocol with computed lengths, an enum, a bitfield and transforms (C31). *)
Lemma sample_written : encode prelude_world (World.prog sample_low) 20 5 "Packet" [] packet = Ok sample_bytes. Proof. vm_compute. reflexivity. Qed.
Example C57_nonvacuous : encode prelude_world (World.prog sample_low) 20 5 "Packet" [] packet = Ok sample_bytes /\ List.length sample_bytes = 35%nat /\ report_all (fun _ _ _ => 0%nat) /\
  run_on (writer 10) (fencode prelude_world (fun _ _ _ => 0%nat) (World.prog sample_low) 20 5 "Packet" [] packet) = (Full, firstn 10 sample_bytes) /\
  run_on (writer 35) (fencode prelude_world (fun _ _ _ => 0%nat) (World.prog sample_low) 20 5 "Packet" [] packet) = (Fin (Ok tt), sample_bytes).
Proof. split; [exact sample_written|]. split; [reflexivity|]. split; [intros x vs l; reflexivity|]. split; vm_compute; reflexivity. Qed.

(** The base64 writer keeps up to two bytes back and writes the last group when it is dropped, where the error is lost. *)
Definition b64_late (x : string) (_ : list val) (l : list Z) : nat := if String.eqb x "base64" then List.length (b64_encode (snd (b64_groups l))) else 0%nat.
Lemma b64_late_last l : skipn (List.length (b64_encode l) - b64_late "base64" [] l) (b64_encode l) = b64_encode (snd (b64_groups l)).
Proof.
  assert (E : b64_encode l = fst (b64_groups l) ++ b64_encode (snd (b64_groups l))).
  { pose proof (writes_encode [l] []) as W. cbn [b64_writes b64_write concat app] in W. unfold b64_write in W. cbn [app] in W. rewrite app_nil_r in W. destruct (b64_groups l). symmetry. exact W. }
  change (b64_late "base64" [] l) with (List.length (b64_encode (snd (b64_groups l)))). rewrite E, app_length. replace (_ + _ - _)%nat with (List.length (fst (b64_groups l))) by lia. rewrite skipn_app, skipn_all, Nat.sub_diag. reflexivity.
Qed.
(** So with base64 the second half fails: the encoder can succeed although the writer failed and never received the end of the message. *)
Theorem C57_base64_reported_refuted : compiled blob_text = Some blob_prog /\
  ~ (forall strict fuel n args v b k, encode (b64_world strict) (World.prog blob_prog) 20 fuel n args v = Ok b -> (k < List.length b)%nat ->
       fst (run_on (writer k) (fencode (b64_world strict) b64_late (World.prog blob_prog) 20 fuel n args v)) <> Fin (Ok tt)).
Proof.
  split; [exact (proj1 C53_message)|]. intros H. apply (H true 3%nat "blob" [] (blob 7 [102; 111; 111; 98]) [7; 90; 109; 57; 118; 89; 103; 61; 61] 5%nat); vm_compute; try reflexivity. repeat constructor.
Qed.
Print Assumptions C57_base64_reported_refuted.
