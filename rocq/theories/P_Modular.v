(** Property C63: the format of a type depends on the types it refers to and on nothing else. *)
From Verif Require Import ScalarFacts DecRef EncRef RtWf RoundTrip World Sample CoderFacts P_Coder P_Lengths P_Safe Modular.
From Coq Require Import Lia.
Open Scope string_scope. Open Scope Z_scope. Open Scope list_scope.

(** The types [n] refers to, directly or through others, and itself. *)
Inductive reaches (p : program) (n : string) : string -> Prop :=
| itself : reaches p n n
| through x d y : reaches p n x -> p x = Some d -> In y (mentions (d_ty d)) -> reaches p n y.

(** C63. Two programs in which the types that [n] refers to are declared alike read and write [n] alike: the same values, bytes, errors and number of bytes taken, whatever else they declare. *)
Theorem C63_same_format : forall w p p' rf, world_suffixing w -> compiles p rf -> compiles p' rf ->
  forall n, (forall x, reaches p n x -> p x = p' x) ->
  forall k args, (forall l, decode w p rf k n args l = decode w p' rf k n args l) /\ (forall v, encode w p rf k n args v = encode w p' rf k n args v).
Proof.
  intros w p p' rf Hw C C' n H k args. assert (A : agree p p' (reaches p n)). { intros x Hx. split; [apply H, Hx|]. intros d Ed y Hy. eapply through; eassumption. } split.
  - intros l. rewrite (proj1 (decode_refines w p rf Hw (proj1 C) k n args l)), (proj1 (decode_refines w p' rf Hw (proj1 C') k n args l)). apply (sdecode_agree w p p' rf _ A). constructor.
  - intros v. rewrite (encode_refines w p rf (proj2 C)), (encode_refines w p' rf (proj2 C')), (sencode_agree w p p' rf _ None A) by constructor. reflexivity.
Qed.
Print Assumptions C63_same_format.
(** Adding declarations, anywhere: a program all of whose references are declared, and one that has these declarations among others. *)
Theorem C63_additions : forall w l l' rf mk mk', world_suffixing w -> prog_ok l rf mk = true -> prog_ok l' rf mk' = true ->
  (forall n d, In (n, d) l -> prog l' n = prog l n /\ forall x, In x (mentions (d_ty d)) -> prog l x <> None) ->
  forall n, prog l n <> None -> forall k args,
  (forall b, decode w (prog l) rf k n args b = decode w (prog l') rf k n args b) /\ (forall v, encode w (prog l) rf k n args v = encode w (prog l') rf k n args v).
Proof.
  intros w l l' rf mk mk' Hw O O' H n Hn. apply C63_same_format; [exact Hw|exact (proj2 (prog_ok_compiles _ _ _ O))|exact (proj2 (prog_ok_compiles _ _ _ O'))|].
  intros x Hx. assert (Dx : prog l x <> None). { induction Hx as [|x d y _ IH E Hy]; [exact Hn|]. apply lookup_in_prog in E. apply (proj2 (H x d E) y Hy). }
  destruct (prog l x) as [d|] eqn:E; [|congruence]. rewrite <- E. symmetry. apply (H x d). apply lookup_in_prog, E.
Qed.
Print Assumptions C63_additions.

(** A specification, and one to which types were added before, between and after, and in which a type it does not refer to was changed. *)
Definition old_text : string := "import_ffi utf8 as type;
  type kind = enum u8 { a = 1, b }; type note = container { n: u8, s: u8[n] };
  type item = container { k: kind, name: utf8, more: u32 { k == kind::b } }; type items = container { n: u8, l: item[n], };".
Definition new_text : string := "import_ffi v32 as type; import_ffi utf8 as type; type id = v32;
  type kind = enum u8 { a = 1, b }; type point = container { x: i16, y: i16 }; type note = container { at: point, text: utf8 };
  type item = container { k: kind, name: utf8, more: u32 { k == kind::b } }; type items = container { n: u8, l: item[n], }; type all = container { ids: id[2], i: items, n: note };".
Example C63_nonvacuous :
  let p := prog (program_of old_text) in let q := prog (program_of new_text) in
  prog_ok (program_of old_text) 20 (prelude_marks []) = true /\ prog_ok (program_of new_text) 20 (prelude_marks []) = true /\
  (forall x, reaches p "items" x -> p x = q x) /\ p "note" <> q "note" /\
  (exists v, decode prelude_world p 20 9 "items" [] [2; 1; 65; 0; 2; 66; 0; 0; 0; 0; 7; 9] = Ok (v, [9]) /\ decode prelude_world q 20 9 "items" [] [2; 1; 65; 0; 2; 66; 0; 0; 0; 0; 7; 9] = Ok (v, [9])) /\
  decode prelude_world p 20 9 "note" [] [1; 2] <> decode prelude_world q 20 9 "note" [] [1; 2].
Proof.
  cbv zeta. assert (O : prog_ok (program_of old_text) 20 (prelude_marks []) = true) by (vm_compute; reflexivity). split; [exact O|]. split; [vm_compute; reflexivity|]. split.
  - intros x Hx. assert (G : In x ["items"; "item"; "kind"; "utf8"]).
    { induction Hx as [|x d y _ IH E Hy]; [left; reflexivity|]. destruct IH as [<-|[<-|[<-|[<-|[]]]]]; vm_compute in E; injection E as <-; vm_compute in Hy; intuition subst; cbn; auto. }
    destruct G as [<-|[<-|[<-|[<-|[]]]]]; vm_compute; reflexivity.
  - split; [vm_compute; discriminate|]. split; [eexists; split; vm_compute; reflexivity|vm_compute; discriminate].
Qed.
Print Assumptions C63_nonvacuous.
