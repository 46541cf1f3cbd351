(** Property C64: how deep generated functions call each other. *)
From Verif Require Import ScalarFacts DecRef EncRef RtWf RoundTrip World Sample CoderFacts ChunkFacts P_Coder P_Lengths P_Safe Modular P_Modular.
From Coq Require Import Lia.
Open Scope string_scope. Open Scope Z_scope. Open Scope list_scope.

(** [y] is named by [x], or by a type that is. *)
Inductive below (p : program) (x : string) : string -> Prop :=
| direct d y : p x = Some d -> In y (mentions (d_ty d)) -> below p x y
| further y d z : below p x y -> p y = Some d -> In z (mentions (d_ty d)) -> below p x z.
(** No type that [n] refers to refers back to itself. *)
Definition not_recursive (p : program) (n : string) : Prop := forall x, reaches p n x -> ~ below p x x.

Lemma below_trans p x y z : below p x y -> below p y z -> below p x z.
Proof. intros A B. induction B as [d z E H|z1 d z B IH E H]; eapply further; eassumption. Qed.
Lemma reaches_below p n x y : reaches p n x -> below p x y -> reaches p n y.
Proof. intros A B. induction B as [d z E H|z1 d z B IH E H]; eapply through; eassumption. Qed.
Lemma below_agree p n : agree p p (below p n).
Proof. intros x Hx. split; [reflexivity|]. intros d E y Hy. eapply further; eassumption. Qed.

Section Depth.
  Variable w : world.
  Variable l : list (string * decl).
  Variable rf : nat.
  Variable top : string.
  Hypothesis NR : not_recursive (prog l) top.
  Lemma declared x d : prog l x = Some d -> In x (map fst l).
  Proof. intros E. apply lookup_in_prog in E. apply (in_map fst) in E. exact E. Qed.
  (** [seen]: the functions being executed, each called by the one before. *)
  Lemma enough m : forall seen n, NoDup seen -> incl seen (map fst l) -> reaches (prog l) top n -> (forall x, In x seen -> reaches (prog l) top x /\ below (prog l) x n) -> (List.length l < m + List.length seen)%nat ->
    forall k k', (m <= k)%nat -> (m <= k')%nat ->
    (forall args b, sdecode w (prog l) rf k n args b = sdecode w (prog l) rf k' n args b) /\ (forall g args v, sencode w (prog l) rf g k n args v = sencode w (prog l) rf g k' n args v).
  Proof.
    induction m as [|m IH]; intros seen n ND IN R B L k k' Hk Hk'; [pose proof (NoDup_incl_length ND IN) as Le; rewrite map_length in Le; lia|].
    destruct k as [|k]; [lia|]. destruct k' as [|k']; [lia|]. cbn [sdecode sencode]. destruct (prog l n) as [d|] eqn:E; [|split; reflexivity]. cbn [of_some bind].
    assert (Fresh : ~ In n seen) by (intros Hin; apply (NR n R); apply (B n Hin)).
    assert (Next : forall x, below (prog l) n x ->
      (forall args b, sdecode w (prog l) rf k x args b = sdecode w (prog l) rf k' x args b) /\ (forall g args v, sencode w (prog l) rf g k x args v = sencode w (prog l) rf g k' x args v)).
    { intros x Hx. apply (IH (n :: seen)); try lia.
      - constructor; assumption.
      - intros y [<-|Hy]; [eapply declared, E|apply IN, Hy].
      - eapply reaches_below; eassumption.
      - intros y [<-|Hy]; [split; assumption|]. destruct (B y Hy) as [B1 B2]. split; [exact B1|eapply below_trans; eassumption].
      - cbn [List.length]. lia. }
    assert (On : forall x, In x (mentions (d_ty d)) -> below (prog l) n x) by (intros x Hx; eapply direct; eassumption).
    split; [intros args b|intros g args v]; (apply bind_ext; [reflexivity|]); intros inp.
    - apply (rd_top w (prog l) (prog l) rf (below (prog l) n) (below_agree _ _)); [intros; apply Next; assumption|exact On].
    - apply (wr_top w (prog l) (prog l) rf (below (prog l) n) (below_agree _ _)); [intros; apply Next; assumption|exact On].
  Qed.
End Depth.

(** C64. If a type is not recursive, its decoder and encoder never have more generated functions on the stack than the program has types (one more for the result to be reported in), whatever the input or value:
    allowing deeper nesting changes nothing. *)
Theorem C64_bounded_depth : forall w l rf, world_suffixing w -> compiles (prog l) rf -> forall n, not_recursive (prog l) n ->
  forall k args, (List.length l < k)%nat ->
  (forall b, decode w (prog l) rf k n args b = decode w (prog l) rf (S (List.length l)) n args b) /\ (forall v, encode w (prog l) rf k n args v = encode w (prog l) rf (S (List.length l)) n args v).
Proof.
  intros w l rf Hw C n NR k args Hk. destruct (enough w l rf n NR (S (List.length l)) [] n (NoDup_nil _) (fun x H => match H with end) (itself _ _) (fun x H => match H with end) ltac:(cbn; lia) k (S (List.length l)) Hk (le_n _)) as [D E]. split.
  - intros b. rewrite !(fun k => proj1 (decode_refines w (prog l) rf Hw (proj1 C) k n args b)). apply D.
  - intros v. rewrite !(fun k => encode_refines w (prog l) rf (proj2 C) k). rewrite E. reflexivity.
Qed.
Print Assumptions C64_bounded_depth.

(** For recursive types there is no bound: whoever writes the input decides how deep the decoder goes, one level for each byte.  [decode k] allows [k] calls one inside the other. *)
Definition chain_text : string := "type chain = container { more: u8, next: chain { more == 1 } };".
Definition chain : program := prog (program_of chain_text).
Lemma chain_ok : prog_ok (program_of chain_text) 20 (prelude_marks []) = true.
Proof. vm_compute. reflexivity. Qed.
Definition link (v : val) : val := VStruct "chain" [("more", VInt U8 1); ("next", VOpt (Some v))].
Lemma chain_step k b : sdecode prelude_world chain 20 (S k) "chain" [] (1 :: b) = let! (v, rest) := sdecode prelude_world chain 20 k "chain" [] b in Ok (link v, rest).
Proof.
  cbn [sdecode]. set (d := chain "chain"). vm_compute in d. subst d. cbn [of_some bind d_params bind_params]. generalize (sdecode prelude_world chain 20 k). intros rec. unfold sd_top. cbn [d_attr fld fa_xs rev d_ty map].
  cbn -[read_exact chain]. set (f := chain "chain"). vm_compute in f. subst f. cbn. destruct (rec "chain" [] b) as [[v r]| | |]; reflexivity.
Qed.
Lemma chain_end k b : exists v, sdecode prelude_world chain 20 (S k) "chain" [] (0 :: b) = Ok (v, b).
Proof.
  cbn [sdecode]. set (d := chain "chain"). vm_compute in d. subst d. cbn [of_some bind d_params bind_params]. generalize (sdecode prelude_world chain 20 k). intros rec. unfold sd_top. cbn [d_attr fld fa_xs rev d_ty map].
  eexists. cbn -[read_exact chain]. reflexivity.
Qed.
Theorem C64_recursive_refuted : forall k, exists b, List.length b = S k /\ decode prelude_world chain 20 k "chain" [] b = Hang /\ exists v, decode prelude_world chain 20 (S k) "chain" [] b = Ok (v, []).
Proof.
  intros k. exists (repeat 1 k ++ [0]). split; [rewrite app_length, repeat_length; cbn; lia|].
  assert (C : compiles chain 20) by exact (proj2 (prog_ok_compiles _ _ _ chain_ok)).
  rewrite !(fun k => proj1 (decode_refines prelude_world chain 20 prelude_world_suffixing (proj1 C) k _ _ _)). induction k as [|k [IH (v & IH')]]; [split; [reflexivity|apply chain_end]|].
  cbn [repeat app]. rewrite !chain_step. rewrite IH, IH'. split; [reflexivity|]. eexists. reflexivity.
Qed.
Print Assumptions C64_recursive_refuted.

(** Types declared after the types they refer to are not recursive. *)
Fixpoint position (l : list (string * decl)) (n : string) : nat := match l with [] => O | (x, _) :: l => match position l n with O => if String.eqb x n then 1%nat else O | S k => S (S k) end end.
Definition in_order (l : list (string * decl)) : bool := forallb (fun nd => forallb (fun y => (position l y <? position l (fst nd))%nat) (mentions (d_ty (snd nd)))) l.
Theorem C64_in_order : forall l, in_order l = true -> forall n, not_recursive (prog l) n.
Proof.
  intros l H n x _ B. unfold in_order in H. rewrite forallb_forall in H.
  assert (G : forall y, below (prog l) x y -> (position l y < position l x)%nat).
  { assert (St : forall x0 d y, prog l x0 = Some d -> In y (mentions (d_ty d)) -> (position l y < position l x0)%nat).
    { intros x0 d y E Hy. apply lookup_in_prog in E. specialize (H _ E). cbn [fst snd] in H. rewrite forallb_forall in H. apply H in Hy. apply Nat.ltb_lt, Hy. }
    induction 1 as [d y E Hy|y d z _ IH E Hz]; [eapply St; eassumption|]. pose proof (St _ _ _ E Hz). lia. }
  specialize (G x B). lia.
Qed.
Print Assumptions C64_in_order.
Example C64_nonvacuous : in_order sample_list = true /\ not_recursive sample "Packet" /\ compiles sample 20 /\ List.length sample_list = 8%nat /\
  (exists b, encode prelude_world sample 20 9 "Packet" [] packet = Ok b) /\ ~ not_recursive chain "chain".
Proof.
  assert (O : in_order sample_list = true) by (vm_compute; reflexivity). split; [exact O|]. split; [exact (C64_in_order _ O _)|]. split; [exact (proj2 (prog_ok_compiles _ _ _ sample_ok))|]. split; [reflexivity|]. split; [eexists; vm_compute; reflexivity|].
  intros H. apply (H "chain" (itself _ _)). eapply direct; [vm_compute; reflexivity|]. cbn. auto.
Qed.
Print Assumptions C64_nonvacuous.
