(** C28, C44: a type declaration can be read back from the accepted program, and means the same wherever it stands. *)
From Verif Require Import Base Scalar ConstInt ConstIntFacts Tokens Ast Parse Front Program FrontFacts TypeFacts P_Types P_Args ElabSpec ElabFacts ElabTypes ElabProgram P_Program ReadBack.
From Coq Require Import Lia Permutation.
Open Scope string_scope. Open Scope Z_scope. Open Scope list_scope.

(** Deep enough to read a declaration. *)
Definition shallow (m : nat) (args : list targ) (f : afield) : Prop := match f with AField t _ _ _ _ => (depth t <= m)%nat end /\ Forall (fun a => (depth (ta_type a) <= m)%nat) args.

Lemma accepted_own en n rs k a p : from_ast en n rs k a = Ok p -> Forall clean_decl a -> import_names a = [] -> own_names p.
Proof.
  unfold from_ast. intros H. destruct (snd (load en n rs k a [] [] [])) as [[c st]| | |]; cbn [bind] in H; try discriminate H. eapply own_accepted; exact H.
Qed.
Lemma read_back en n rs k a p x args f m : from_ast en n rs k a = Ok p -> Forall clean_decl a -> import_names a = [] -> In (DType x args f) a -> shallow m args f ->
  read_decl p m x = Some (DType x (map plain_arg args) (plain_field f)).
Proof.
  intros H C NI Hi [D Da]. pose proof (accepted_own _ _ _ _ _ _ H C NI) as Own. apply accepted in H as (_ & _ & Hd & _); [|exact C]. rewrite Forall_forall in Hd. specialize (Hd _ Hi).
  eapply read_declared; [exact Own|exact D|exact Da|exact Hd].
Qed.

(** C28. Nothing in a declaration of a type is lost or changed by the analysis but the spelling of numbers and the conversions: read back from the accepted
    program ([read_decl]), the declaration is the one that was written, in which a number is written in decimal and without a suffix, casts are left out,
    and items of an enum or bitfield that had no value have the previous one's plus (shifted by) the distance to it ([plain_field]).  Partial: for programs without
    imports, and fields are not named like padding. *)
Theorem C28_read_back_partial : forall en n rs k a p x args f m, from_ast en n rs k a = Ok p -> Forall clean_decl a -> import_names a = [] -> In (DType x args f) a -> shallow m args f ->
  read_decl p m x = Some (DType x (map plain_arg args) (plain_field f)).
Proof. exact read_back. Qed.
Print Assumptions C28_read_back_partial.

Lemma import_perm a a' : Permutation a a' -> Permutation (import_names a) (import_names a').
Proof.
  induction 1 as [|d a a' P IH|d e a|a b c P IH Q IH2]; [constructor| | |eapply Permutation_trans; eassumption].
  - destruct d; cbn [import_names]; try exact IH. apply Permutation_app_head, IH.
  - destruct d, e; cbn [import_names]; try apply Permutation_refl. rewrite !app_assoc. apply Permutation_app_tail, Permutation_app_comm.
Qed.
Lemma shallow_some : forall args f, exists m, shallow m args f.
Proof.
  intros args [t c fl cd xs]. exists (depth t + fold_right (fun a s => depth (ta_type a) + s) 0 args)%nat. split; [lia|].
  assert (G : forall b, Forall (fun a => (depth (ta_type a) <= b + fold_right (fun a s => depth (ta_type a) + s) 0 args)%nat) args); [|apply G].
  induction args as [|a args IH]; intros b; constructor; cbn [fold_right]; [lia|]. specialize (IH (b + depth (ta_type a))%nat). eapply Forall_impl; [|exact IH]. cbn. intros z Hz. lia.
Qed.

(** C44. Two programs with the same declarations in different orders, when both are accepted, give every declared type the same meaning.
    Partial: as C28_read_back_partial; that a reordering is accepted is another matter (C44 in P_Program.v). *)
Lemma same_meaning en n rs k a p en' n' rs' k' a' p' : Permutation a a' -> from_ast en n rs k a = Ok p -> from_ast en' n' rs' k' a' = Ok p' -> Forall clean_decl a -> import_names a = [] ->
  forall x, In x (type_names a) -> exists m d, read_decl p m x = Some d /\ forall m', (m <= m')%nat -> read_decl p m' x = Some d /\ read_decl p' m' x = Some d.
Proof.
  intros P H H' C NI x Hx. apply in_type_names in Hx as (args & f & Hi). assert (C' : Forall clean_decl a') by (rewrite Forall_forall in *; intros d Hd; apply C; eapply Permutation_in; [apply Permutation_sym, P|exact Hd]).
  assert (NI' : import_names a' = []) by (apply import_perm in P; rewrite NI in P; apply Permutation_nil, P). assert (Hi' : In (DType x args f) a') by (eapply Permutation_in; eassumption).
  destruct (shallow_some args f) as [m Hm]. exists m. eexists. split; [eapply read_back; eassumption|]. intros m' L.
  assert (Hm' : shallow m' args f). { destruct f, Hm as [A B]. split; [lia|]. eapply Forall_impl; [|exact B]. cbn. intros; lia. }
  split; eapply read_back; eassumption.
Qed.
Theorem C44_same_meaning_partial : forall en n rs k a p en' n' rs' k' a' p', Permutation a a' -> from_ast en n rs k a = Ok p -> from_ast en' n' rs' k' a' = Ok p' -> Forall clean_decl a -> import_names a = [] ->
  forall x, In x (type_names a) -> exists m d, read_decl p m x = Some d /\ forall m', (m <= m')%nat -> read_decl p m' x = Some d /\ read_decl p' m' x = Some d.
Proof. exact same_meaning. Qed.
Print Assumptions C44_same_meaning_partial.

(** C63, the front end: a declaration means the same in every accepted program that has it, whatever the program declares besides.  Partial as C28_read_back_partial. *)
Theorem C63_front_end_partial : forall en n rs k a p en' n' rs' k' a' p', (forall d, In d a -> In d a') -> from_ast en n rs k a = Ok p -> from_ast en' n' rs' k' a' = Ok p' ->
  Forall clean_decl a' -> import_names a = [] -> import_names a' = [] ->
  forall x, In x (type_names a) -> exists m d, read_decl p m x = Some d /\ forall m', (m <= m')%nat -> read_decl p m' x = Some d /\ read_decl p' m' x = Some d.
Proof.
  intros en n rs k a p en' n' rs' k' a' p' P H H' C' NI NI' x Hx. apply in_type_names in Hx as (args & f & Hi). assert (C : Forall clean_decl a) by (rewrite Forall_forall in *; intros d Hd; apply C', P, Hd).
  pose proof (P _ Hi) as Hi'. destruct (shallow_some args f) as [m Hm]. exists m. eexists. split; [eapply read_back; eassumption|]. intros m' L.
  assert (Hm' : shallow m' args f). { destruct f, Hm as [A B]. split; [lia|]. eapply Forall_impl; [|exact B]. cbn. intros; lia. }
  split; eapply read_back; eassumption.
Qed.
Print Assumptions C63_front_end_partial.

(** A program in two orders; what is read back of one of its types. *)
Definition rb_item : string := "type item(n: u8 ? 0x3) = container [ n * 2 ] { x: kind, d: u8[n + k], rest: u8[..] { x == kind::b } };".
Definition rb_kind : string := "type kind = enum i16 { a = 2, b, c = default };".
Definition rb_const : string := "const k: u8 = 0x10;".
Definition rb_1 : aprogram := Eval vm_compute in match parse (bs (rb_kind ++ rb_const ++ rb_item)) with Ok a => a | _ => [] end.
Definition rb_2 : aprogram := Eval vm_compute in match parse (bs (rb_const ++ rb_kind ++ rb_item)) with Ok a => a | _ => [] end.
Definition rb_p1 : prog := Eval vm_compute in match from_ast string_env 30 no_resolver 2 rb_1 with Ok p => p | _ => rec_prog end.
Definition rb_p2 : prog := Eval vm_compute in match from_ast string_env 30 no_resolver 2 rb_2 with Ok p => p | _ => rec_prog end.
Lemma rb_clean : Forall clean_decl rb_1.
Proof.
  unfold rb_1. repeat (apply Forall_cons; [cbn [clean_decl clean_type clean_field clean_args]; repeat split; try (apply not_pad; discriminate); try (repeat constructor)|]). constructor.
Qed.
Example C44_same_meaning_nonvacuous : List.length rb_1 = 3%nat /\ Permutation rb_1 rb_2 /\ rb_1 <> rb_2 /\ from_ast string_env 30 no_resolver 2 rb_1 = Ok rb_p1 /\ from_ast string_env 30 no_resolver 2 rb_2 = Ok rb_p2 /\
  Forall clean_decl rb_1 /\ import_names rb_1 = [] /\ type_names rb_1 = [bs "kind"; bs "item"].
Proof.
  split; [reflexivity|]. split; [apply perm_swap|]. split; [discriminate|]. split; [vm_compute; reflexivity|]. split; [vm_compute; reflexivity|]. split; [exact rb_clean|]. split; reflexivity.
Qed.
Example C28_read_back_nonvacuous : match parse (bs "type kind = enum i16 { a = 2, b = a + 1, c = default };") with Ok [d] => read_decl rb_p1 5 (bs "kind") = Some d | _ => False end /\
  match parse (bs "type item(n: u8 ? 3) = container [ n * 2 ] { x: kind, d: u8[n + k], rest: u8[..] { x == kind::b } };") with Ok [d] => read_decl rb_p1 5 (bs "item") = Some d | _ => False end.
Proof. split; vm_compute; reflexivity. Qed.
(** A program with a declaration less. *)
Definition rb_3 : aprogram := Eval vm_compute in match parse (bs (rb_kind ++ rb_const)) with Ok a => a | _ => [] end.
Example C63_front_end_nonvacuous : (forall d, In d rb_3 -> In d rb_1) /\ List.length rb_3 = 2%nat /\ (exists p, from_ast string_env 30 no_resolver 2 rb_3 = Ok p) /\ from_ast string_env 30 no_resolver 2 rb_1 = Ok rb_p1 /\
  Forall clean_decl rb_1 /\ import_names rb_3 = [] /\ import_names rb_1 = [] /\ type_names rb_3 = [bs "kind"].
Proof.
  split; [intros d [<-|[<-|[]]]; cbn; auto|]. split; [reflexivity|]. split; [eexists; vm_compute; reflexivity|]. split; [vm_compute; reflexivity|]. split; [exact rb_clean|]. repeat split; reflexivity.
Qed.
