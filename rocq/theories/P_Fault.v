(** Property C58: decoding from a reader that fails. *)
From Verif Require Import Base Scalar EnumBits Expr Asg Gen Decode Encode Fault FaultFacts Prelude PreludeFacts UtfFacts DecRef RtWf CoderFacts World Sample Data DataFacts Safe SafeFacts P_Coder P_Lengths P_Data P_Safe P_Pipeline.
From Coq Require Import Lia.
Open Scope string_scope. Open Scope Z_scope. Open Scope list_scope.

(** C58. [delivered] bytes arrive, then the reader fails.  Unless the decoder returns the reader's error, what it returns is what it would have returned whatever else had come: the same value or
    error, [x] left over.  (Or the longer input would make it loop for ever.) *)
Theorem C58_never_invented : forall w bw p rf, bad_agrees w bw -> (forall n, (0 < n)%nat -> (0 < w_fill w n <= n)%nat) -> (forall n m, (n <= m)%nat -> (w_fill w n <= w_fill w m)%nat) ->
  forall k n args delivered v rest, gdecode w bw p rf k n args delivered true = Own (Ok (v, rest)) ->
  forall x, decode w p rf k n args (delivered ++ x) = Ok (v, rest ++ x) \/ (x <> [] /\ decode w p rf k n args (delivered ++ x) = Hang).
Proof.
  intros w bw p rf H1 H2 H3 k n args l v rest E x. destruct (gdecode_post False (fun _ => false) (fun _ _ => false) (fun _ => false) w bw p rf H1 H2 H3 (fun f => match f with end) (fun f => match f with end) k n args l true x) as [G|G]; [discriminate|right; exact G|].
  left. rewrite E in G. destruct G as ([v' rest'] & G & A & B). cbn in A, B. subst v' rest'. exact G.
Qed.
Print Assumptions C58_never_invented.
Theorem C58_never_invented_error : forall w bw p rf, bad_agrees w bw -> (forall n, (0 < n)%nat -> (0 < w_fill w n <= n)%nat) -> (forall n m, (n <= m)%nat -> (w_fill w n <= w_fill w m)%nat) ->
  forall k n args delivered e, gdecode w bw p rf k n args delivered true = Own (Err e) ->
  forall x, decode w p rf k n args (delivered ++ x) = Err e \/ (x <> [] /\ decode w p rf k n args (delivered ++ x) = Hang).
Proof.
  intros w bw p rf H1 H2 H3 k n args l e E x. destruct (gdecode_post False (fun _ => false) (fun _ _ => false) (fun _ => false) w bw p rf H1 H2 H3 (fun f => match f with end) (fun f => match f with end) k n args l true x) as [G|G]; [discriminate|right; exact G|].
  left. rewrite E in G. exact G.
Qed.
Print Assumptions C58_never_invented_error.
(** The reader's failure shows up as its error or not at all. *)
Lemma own_or_failed w bw p rf : bad_agrees w bw -> (forall n, (0 < n)%nat -> (0 < w_fill w n <= n)%nat) -> (forall n m, (n <= m)%nat -> (w_fill w n <= w_fill w m)%nat) ->
  forall bad k n args l, gdecode w bw p rf k n args l bad = Failed \/ gdecode w bw p rf k n args l bad = Own (decode w p rf k n args l).
Proof.
  intros H1 H2 H3 bad k n args l. destruct (gdecode_post False (fun _ => false) (fun _ _ => false) (fun _ => false) w bw p rf H1 H2 H3 (fun f => match f with end) (fun f => match f with end) k n args l bad []) as [[G _]|G]; [reflexivity|congruence|].
  rewrite app_nil_r in G. destruct (gdecode w bw p rf k n args l bad) as [[[v r]|e| |]|]; [right|right|right|right|left; reflexivity].
  - destruct G as ([v' r'] & -> & A & B). cbn in A, B. rewrite app_nil_r in B. subst. reflexivity.
  - rewrite G. reflexivity.
  - rewrite G. reflexivity.
  - rewrite (G eq_refl). reflexivity.
Qed.
Theorem C58_same_or_reported : forall w bw p rf, bad_agrees w bw -> (forall n, (0 < n)%nat -> (0 < w_fill w n <= n)%nat) -> (forall n m, (n <= m)%nat -> (w_fill w n <= w_fill w m)%nat) ->
  forall k n args delivered, gdecode w bw p rf k n args delivered true = Failed \/ gdecode w bw p rf k n args delivered true = Own (decode w p rf k n args delivered).
Proof. exact (fun w bw p rf H1 H2 H3 => own_or_failed w bw p rf H1 H2 H3 true). Qed.
Print Assumptions C58_same_or_reported.
(** Types [lt] that refer only to each other and never ask for the end of their input (no rest-of-stream or terminated arrays, unsized strings, or transforms that do): a value is only withheld when
    its bytes are missing; with all of them delivered, the failure goes unnoticed. *)
Theorem C58_delivered_partial : forall w bw p rf lt lf lx, bad_agrees w bw -> (forall n, (0 < n)%nat -> (0 < w_fill w n <= n)%nat) -> (forall n m, (n <= m)%nat -> (w_fill w n <= w_fill w m)%nat) ->
  exact_names w bw lf lx -> (forall n d code, lt n = true -> p n = Some d -> dec_code p rf d = Some code -> forallb (exact lt lf lx) code = true) ->
  forall k n args delivered v rest, lt n = true -> decode w p rf k n args delivered = Ok (v, rest) -> gdecode w bw p rf k n args delivered true = Own (Ok (v, rest)).
Proof.
  intros w bw p rf lt lf lx H1 H2 H3 H4 H5 k n args l v rest Hn E. destruct (own_or_failed w bw p rf H1 H2 H3 true k n args l) as [F|F]; [|rewrite F, E; reflexivity].
  destruct (gdecode_post True lt lf lx w bw p rf H1 H2 H3 (fun _ => H4) (fun _ => H5) k n args l true []) as [[G _]|G]; [discriminate|congruence|]. rewrite F, app_nil_r in G. specialize (G (conj I Hn) eq_refl). congruence.
Qed.
Print Assumptions C58_delivered_partial.

(** ** The prelude *)
(** var.rs:78-91 and utf8.rs:36-48 read exactly; utf8.rs:49-58 (read_until) and xor read on until they see the terminator or the end. *)
Definition prelude_bad : bad_world := {|
  bw_fdec := fun f vs l =>
    match var_of f, vs with
    | None, [] => if existsb (Z.eqb 0) l then Own (pw_fdec f vs l) else if String.eqb f "utf8" then Failed else Own Panic
    | _, _ => match pw_fdec f vs l with Err EEof => Failed | r => Own r end
    end;
  bw_xdec := fun x vs l => match pw_xdec x vs l with Ok _ => Failed | r => Own r end |}.
Definition exact_foreign (f : string) (nargs : nat) : bool := is_var f || (0 <? nargs)%nat.

Lemma read_more n l x r : read_exact n l = r -> r <> Err EEof -> read_exact n (l ++ x) = more x r.
Proof.
  unfold read_exact. intros <- N. destruct (Nat.leb_spec n (List.length l)) as [L|L]; [|congruence]. rewrite app_length. replace (n <=? _)%nat with true by (symmetry; apply Nat.leb_le; lia). cbn. rewrite firstn_app, skipn_app. replace (n - List.length l)%nat with 0%nat by lia. cbn. rewrite app_nil_r. reflexivity.
Qed.
Lemma varint_more s x : forall fuel i o l, varint_read fuel s i o l <> Err EEof -> varint_read fuel s i o (l ++ x) = more x (varint_read fuel s i o l).
Proof.
  induction fuel as [|fuel IH]; intros i o l; cbn [varint_read]; [reflexivity|]. intros N. destruct l as [|b l]; [exfalso; apply N; reflexivity|]. cbn [app]. change (read_exact 1 (b :: l)) with (Ok ([b], l) : res ioerr _) in *. change (read_exact 1 (b :: l ++ x)) with (Ok ([b], l ++ x) : res ioerr _). cbn [bind hd] in *.
  destruct (varint_end s <? S i)%nat; [reflexivity|]. destruct (Z.land b 128 =? 128); [apply IH, N|reflexivity].
Qed.
Lemma until_more x : forall l, existsb (Z.eqb 0) l = true -> read_until0 (l ++ x) = (fst (read_until0 l), snd (read_until0 l) ++ x).
Proof.
  induction l as [|b l IH]; [discriminate|]. cbn [existsb app read_until0]. rewrite (Z.eqb_sym 0 b). destruct (b =? 0); [reflexivity|]. cbn [orb]. intros H. rewrite (IH H). destruct (read_until0 l). reflexivity.
Qed.
Lemma more_bind {A B} (g : A -> B) x (r : res ioerr (A * list Z)) : (let! (a, l) := more x r in Ok (g a, l)) = more x (let! (a, l) := r in Ok (g a, l)).
Proof. destruct r as [[a l]|e| |]; reflexivity. Qed.
Lemma pw_fdec_more f vs l x : (var_of f = None -> vs = [] -> existsb (Z.eqb 0) l = true) -> pw_fdec f vs l <> Err EEof -> pw_fdec f vs (l ++ x) = more x (pw_fdec f vs l).
Proof.
  intros H0. unfold pw_fdec. destruct (var_of f) as [s|].
  - intros N. unfold varint_decode in *. rewrite varint_more; [apply (more_bind (VInt s))|]. intros E. apply N. rewrite E. reflexivity.
  - destruct (String.eqb f "utf8"); [|reflexivity]. destruct vs as [|v vs].
    + intros _. unfold utf8_read. rewrite (until_more x l (H0 eq_refl eq_refl)). destruct (read_until0 l) as [t r]. cbn [fst snd]. destruct (of_opt EDecode (from_utf8 _)); reflexivity.
    + destruct v as [s n| | | | | | | | | | | |]; try reflexivity. destruct s; try reflexivity. destruct vs; [|reflexivity]. unfold utf8_read. destruct (2 ^ 63 <=? n); [reflexivity|]. intros N.
      assert (N1 : read_exact (Z.to_nat n) l <> Err EEof) by (intros E; apply N; rewrite E; reflexivity). rewrite (read_more _ _ x _ eq_refl N1). destruct (read_exact (Z.to_nat n) l) as [[t r]|e| |]; cbn [more bind]; try reflexivity. destruct (of_opt EDecode (from_utf8 t)); reflexivity.
Qed.
Lemma prelude_bad_agrees : bad_agrees prelude_world prelude_bad.
Proof.
  split; intros f vs l r; cbn [bw_fdec bw_xdec prelude_bad prelude_world w_fdec w_xdec].
  - assert (G : (var_of f = None -> vs = [] -> existsb (Z.eqb 0) l = true) -> match pw_fdec f vs l with Err EEof => Failed | r => Own r end = Own r -> forall x, pw_fdec f vs (l ++ x) = more x r).
    { intros H0 E x. assert (N : pw_fdec f vs l <> Err EEof) by (intros N; rewrite N in E; discriminate). rewrite (pw_fdec_more f vs l x H0 N). destruct (pw_fdec f vs l) as [a|e| |]; [|destruct e|..]; congruence. }
    destruct (var_of f) as [s|] eqn:V; [apply G; discriminate|]. destruct vs as [|v vs]; [|apply G; discriminate]. destruct (existsb (Z.eqb 0) l) eqn:E0.
    + intros E x. injection E as <-. apply pw_fdec_more; [auto|]. unfold pw_fdec. rewrite V. destruct (String.eqb f "utf8"); [|discriminate]. unfold utf8_read. destruct (read_until0 l) as [t q]. destruct (from_utf8 _); discriminate.
    + destruct (String.eqb f "utf8") eqn:U; [discriminate|]. intros E x. injection E as <-. unfold pw_fdec. rewrite V, U. reflexivity.
  - unfold pw_xdec. destruct (String.eqb f "xor"); [|intros E; injection E as <-; reflexivity]. destruct vs as [|v vs]; [intros E; injection E as <-; reflexivity|]. destruct v as [s n| | | | | | | | | | | |]; try (intros E; injection E as <-; reflexivity). destruct s; try (intros E; injection E as <-; reflexivity). destruct vs; [discriminate|intros E; injection E as <-; reflexivity].
Qed.
Lemma prelude_exact : exact_names prelude_world prelude_bad exact_foreign (fun _ => false).
Proof.
  split; [|discriminate]. intros f vs l. cbn [bw_fdec prelude_bad prelude_world w_fdec]. unfold exact_foreign, is_var. intros X.
  assert (G : match pw_fdec f vs l with Err EEof => Failed | r => Own r end = Failed -> pw_fdec f vs l = Err EEof) by (destruct (pw_fdec f vs l) as [a|e| |]; try discriminate; destruct e; [reflexivity|discriminate|discriminate]).
  destruct (var_of f); [exact G|]. destruct vs; [discriminate X|exact G].
Qed.
(** Every protocol over the prelude: a value read from a reader that failed is the value of the whole message, however it goes on. *)
Theorem C58_prelude : forall l rf k n args delivered v rest, gdecode prelude_world prelude_bad (World.prog l) rf k n args delivered true = Own (Ok (v, rest)) ->
  forall x, decode prelude_world (World.prog l) rf k n args (delivered ++ x) = Ok (v, rest ++ x) \/ (x <> [] /\ decode prelude_world (World.prog l) rf k n args (delivered ++ x) = Hang).
Proof. exact (fun l rf => C58_never_invented _ _ _ rf prelude_bad_agrees (fun n H => conj H (le_n n)) (fun n m H => H)). Qed.
Print Assumptions C58_prelude.
Definition exact_types (l : list (string * decl)) (rf : nat) (lt : list string) : bool :=
  forallb (fun nd => negb (mem (fst nd) lt) || match dec_code (World.prog l) rf (snd nd) with Some code => forallb (exact (fun n => mem n lt) exact_foreign (fun _ => false)) code | None => true end) l.
Theorem C58_prelude_delivered_partial : forall l rf lt, exact_types l rf lt = true -> forall k n args delivered v rest, In n lt ->
  decode prelude_world (World.prog l) rf k n args delivered = Ok (v, rest) -> gdecode prelude_world prelude_bad (World.prog l) rf k n args delivered true = Own (Ok (v, rest)).
Proof.
  intros l rf lt H k n args delivered v rest Hn. apply (C58_delivered_partial _ _ _ rf (fun n => mem n lt) exact_foreign (fun _ => false) prelude_bad_agrees (fun n H => conj H (le_n n)) (fun n m H => H) prelude_exact).
  - intros x d code Hx Hd Hc. apply lookup_in_prog in Hd. unfold exact_types in H. rewrite forallb_forall in H. specialize (H _ Hd). cbn [fst snd] in H. rewrite Hx, Hc in H. exact H.
  - unfold mem. apply existsb_exists. exists n. split; [exact Hn|apply String.eqb_refl].
Qed.
Print Assumptions C58_prelude_delivered_partial.

(** The sample protocol (a limited container with a rest-of-stream array in it and a terminated array after it), all of it delivered, or not. *)
Example C58_nonvacuous : bad_agrees prelude_world prelude_bad /\ List.length sample_bytes = 35%nat /\
  gdecode prelude_world prelude_bad (World.prog sample_low) 20 5 "Packet" [] (sample_bytes ++ [9]) true = Own (Ok (packet, [9])) /\
  gdecode prelude_world prelude_bad (World.prog sample_low) 20 5 "Packet" [] (firstn 34 sample_bytes) true = Failed /\
  gdecode prelude_world prelude_bad (World.prog sample_low) 20 5 "Packet" [] [] true = Failed.
Proof. split; [exact prelude_bad_agrees|]. split; [reflexivity|]. vm_compute. repeat split; reflexivity. Qed.
(** A message of declared extent throughout. *)
Definition log_text : string := "import_ffi utf8 as type; import_ffi v32 as type; type kind = enum u8 { Start = 1, Stop = 2 };
type entry = container { id: v32, n: u64, name: utf8(n), k: kind }; type log = container { count: u16, entries: entry[count], crc: u32 };".
Definition log_prog : list (string * decl) := Eval vm_compute in program_of log_text.
Definition log_bytes : list Z := [0; 1; 5; 0; 0; 0; 0; 0; 0; 0; 2; 104; 105; 2; 0; 0; 0; 7].
Example C58_delivered_nonvacuous : compiled log_text = Some log_prog /\ exact_types log_prog 20 ["log"; "entry"; "kind"] = true /\
  exists v, decode prelude_world (World.prog log_prog) 20 5 "log" [] log_bytes = Ok (v, []) /\ gdecode prelude_world prelude_bad (World.prog log_prog) 20 5 "log" [] log_bytes true = Own (Ok (v, [])) /\
    gdecode prelude_world prelude_bad (World.prog log_prog) 20 5 "log" [] (firstn 17 log_bytes) true = Failed.
Proof.
  split; [vm_compute; reflexivity|]. split; [vm_compute; reflexivity|]. exists (match decode prelude_world (World.prog log_prog) 20 5 "log" [] log_bytes with Ok (v, _) => v | _ => VBool false end). vm_compute. repeat split; reflexivity.
Qed.
(** With the end of the input instead of a failure, the first half is false (C33): a shorter value is accepted, and changes with what follows. *)
Theorem C58_end_of_input_refuted :
  ~ (forall delivered v rest x, decode prelude_world (World.prog short_prog) 9 3 "T" [] delivered = Ok (v, rest) -> decode prelude_world (World.prog short_prog) 9 3 "T" [] (delivered ++ x) = Ok (v, rest ++ x)) /\
  gdecode prelude_world prelude_bad (World.prog short_prog) 9 3 "T" [] [4; 1; 2] true = Failed.
Proof.
  split; [|vm_compute; reflexivity]. intros H. destruct (decode prelude_world (World.prog short_prog) 9 3 "T" [] [4; 1; 2]) as [[v rest]| | |] eqn:E; try (vm_compute in E; discriminate E). specialize (H _ _ _ [3; 4] E). vm_compute in E. injection E as <- <-. vm_compute in H. discriminate H.
Qed.
Print Assumptions C58_end_of_input_refuted.

(** C58 for the programs whose decoders are known to return (C49): then nothing is missing from C58, the longer input cannot make the decoder loop. *)
Theorem C58_returning_programs : forall l rf tys ann, prog_ok l rf (prelude_marks tys) = true -> data_prog l rf = true -> safe_list l rf ann = true ->
  forall n a args delivered x, lookup n ann = Some a -> Forall2 (vhas (World.prog l) prelude_values) (an_par a) args -> Z.of_nat (List.length (delivered ++ x)) < 2 ^ 63 ->
  exists depth, forall k, (depth <= k)%nat -> match gdecode prelude_world prelude_bad (World.prog l) rf k n args delivered true with
  | Own (Ok (v, rest)) => decode prelude_world (World.prog l) rf k n args (delivered ++ x) = Ok (v, rest ++ x)
  | Own (Err e) => decode prelude_world (World.prog l) rf k n args (delivered ++ x) = Err e
  | Own Panic | Own Hang => False
  | Failed => True
  end.
Proof.
  intros l rf tys ann H D S n a args dl x En Ha L. assert (L0 : Z.of_nat (List.length dl) < 2 ^ 63) by (rewrite app_length in L; lia).
  destruct (C49_prelude_decoder_returns_partial l rf tys ann H D S n a args _ En Ha L) as (d1 & r1 & E1 & N1 & M1).
  destruct (C49_prelude_decoder_returns_partial l rf tys ann H D S n a args _ En Ha L0) as (d2 & r2 & E2 & N2 & M2).
  exists (Nat.max d1 d2). intros k Hk. specialize (E1 k ltac:(lia)). specialize (E2 k ltac:(lia)). destruct (gdecode _ _ _ _ _ _ _ _ _) as [r|] eqn:G; [|exact I].
  destruct (own_or_failed prelude_world prelude_bad (World.prog l) rf prelude_bad_agrees (fun n H => conj H (le_n n)) (fun n m H => H) true k n args dl) as [F|F]; [congruence|].
  rewrite G in F. injection F as ->. rewrite E2 in *. destruct r2 as [[v rest]|e| |]; [| |congruence|congruence].
  - destruct (C58_prelude l rf k n args dl v rest G x) as [Z|[_ Z]]; [exact Z|]. rewrite Z in E1. congruence.
  - destruct (C58_never_invented_error _ _ _ rf prelude_bad_agrees (fun n H => conj H (le_n n)) (fun n m H => H) k n args dl e G x) as [Z|[_ Z]]; [exact Z|]. rewrite Z in E1. congruence.
Qed.
Print Assumptions C58_returning_programs.
Example C58_returning_nonvacuous :
  (forall dl x, Z.of_nat (List.length (dl ++ x)) < 2 ^ 63 -> exists depth, forall k, (depth <= k)%nat ->
     match gdecode prelude_world prelude_bad (World.prog (program_of tree_text)) 20 k "msg" [] dl true with
     | Own (Ok (v, rest)) => decode prelude_world (World.prog (program_of tree_text)) 20 k "msg" [] (dl ++ x) = Ok (v, rest ++ x)
     | Own (Err e) => decode prelude_world (World.prog (program_of tree_text)) 20 k "msg" [] (dl ++ x) = Err e
     | Own Panic | Own Hang => False
     | Failed => True
     end) /\
  gdecode prelude_world prelude_bad (World.prog (program_of tree_text)) 20 9 "tree" [] [2; 1; 0; 7] true = Failed /\
  gdecode prelude_world prelude_bad (World.prog (program_of tree_text)) 20 9 "tree" [] [3] true = Own (Err EDecode).
Proof.
  assert (A : prog_ok (program_of tree_text) 20 (prelude_marks []) = true) by (vm_compute; reflexivity). assert (B : data_prog (program_of tree_text) 20 = true) by (vm_compute; reflexivity).
  assert (C : safe_list (program_of tree_text) 20 tree_ann = true) by (vm_compute; reflexivity).
  split; [|split; vm_compute; reflexivity]. intros dl x L. exact (C58_returning_programs _ 20 [] tree_ann A B C "msg" (an 2 true []) [] dl x eq_refl (Forall2_nil _) L).
Qed.
Print Assumptions C58_returning_nonvacuous.
