(** Property C60: the generated code does not depend on the order in which the generator's hash set is iterated. *)
From Verif Require Import EncWf DecRef EncOrd World P_Lengths P_Safe P_Data.
From Coq Require Import Permutation Lia.
Open Scope string_scope. Open Scope Z_scope. Open Scope list_scope.

(** What compiler/encoder.rs:25-456 writes for a list of instructions, as far as the references go: SetRef (444-446) writes nothing, names in expressions (41-52) and GetRef (447-454) are
    replaced by the registers last set for them.  [None]: the name is not set (the generator panics).  The other instructions stand for the text written for them. *)
Inductive stmt :=
| SEval (r : nat) (e : expr) (names : list (string * option nat))
| SGetRef (r : nat) (q : option nat)
| SPlain (i : einstr)
| SNest (head : einstr) (body : list stmt).
Fixpoint emit (m : rmap) (i : einstr) : list stmt :=
  let seq := fix seq (m : rmap) (l : list einstr) : list stmt := match l with [] => [] | i :: l => emit m i ++ seq (escan i m) l end in
  match i with
  | NSetRef _ _ => []
  | NGetRef r n => [SGetRef r (lookup n m)]
  | NEval r e => [SEval r e (map (fun n => (n, lookup n m)) (fv e))]
  | NCondWrap c l s r o x args => [SNest (NCondWrap c [] s r o x args) (seq m l)]
  | NLoop i s l => [SNest (NLoop i s []) (seq m l)]
  | NCond c l => [SNest (NCond c []) (seq m l)]
  | NBreakBlock l => [SNest (NBreakBlock []) (seq m l)]
  | i => [SPlain i]
  end.
Fixpoint emits (m : rmap) (l : list einstr) : list stmt := match l with [] => [] | i :: l => emit m i ++ emits (escan i m) l end.

(** The text is the same, and so are the references after it. *)
Definition twin (l l' : list einstr) : Prop := forall m m', meq m m' -> meq (escans l m) (escans l' m') /\ emits m l = emits m' l'.
Lemma emits_ext l : Forall (fun i => forall m m', meq m m' -> emit m i = emit m' i) l -> forall m m', meq m m' -> emits m l = emits m' l.
Proof. induction 1 as [|i l H _ IH]; intros m m' E; cbn [emits]; [reflexivity|]. rewrite (H m m' E), (IH _ _ (escan_ext i _ _ E)). reflexivity. Qed.
Lemma emit_ext i : forall m m', meq m m' -> emit m i = emit m' i.
Proof.
  induction i as [i IH] using einstr_ind_bodies. intros m m' E. pose proof (emits_ext _ IH m m' E) as G.
  destruct i; cbn [bodies] in *; try reflexivity.
  - cbn [emit]. do 2 f_equal. apply map_ext. intros n. rewrite E. reflexivity.
  - cbn [emit]. rewrite E. reflexivity.
  - change ([SNest (NCondWrap c [] s r owned x args) (emits m prelude)] = [SNest (NCondWrap c [] s r owned x args) (emits m' prelude)]). rewrite G. reflexivity.
  - change ([SNest (NLoop idx stop []) (emits m body)] = [SNest (NLoop idx stop []) (emits m' body)]). rewrite G. reflexivity.
  - change ([SNest (NCond c []) (emits m body)] = [SNest (NCond c []) (emits m' body)]). rewrite G. reflexivity.
  - change ([SNest (NBreakBlock []) (emits m body)] = [SNest (NBreakBlock []) (emits m' body)]). rewrite G. reflexivity.
Qed.
Lemma twin_refl l : twin l l.
Proof.
  intros m m' E. split.
  - apply escans_ext; [|exact E]. apply Forall_forall. intros i _. apply escan_ext.
  - apply emits_ext; [|exact E]. apply Forall_forall. intros i _. apply emit_ext.
Qed.
Lemma twin_app a a' b b' : twin a a' -> twin b b' -> twin (a ++ b) (a' ++ b').
Proof.
  intros H G m m' E. destruct (H m m' E) as [H1 H2]. destruct (G _ _ H1) as [G1 G2].
  assert (S : forall l r m, escans (l ++ r) m = escans r (escans l m)) by (induction l as [|i l IH]; intros r q; cbn; [reflexivity|apply IH]).
  assert (T : forall l r m, emits m (l ++ r) = emits m l ++ emits (escans l m) r) by (induction l as [|i l IH]; intros r q; cbn [app emits escans]; [reflexivity|rewrite IH, app_assoc; reflexivity]).
  rewrite !S, !T, H2, G2. split; [exact G1|reflexivity].
Qed.
Lemma twin_nest (mk : list einstr -> einstr) l l' : (forall l m, escans [mk l] m = escans l m) -> (forall l m, emits m [mk l] = [SNest (mk []) (emits m l)]) -> twin l l' -> twin [mk l] [mk l'].
Proof. intros A B H m m' E. destruct (H m m' E) as [H1 H2]. rewrite !A, !B, H2. split; [exact H1|reflexivity]. Qed.

(** Setting the lengths in one order or another. *)
Lemma blen_name_inj a b : blen_name a = blen_name b -> a = b.
Proof. unfold blen_name. cbn [append]. intros H. injection H as H. exact H. Qed.
Definition setters (f : string -> nat) (l : list string) : list einstr := map (fun n => NSetRef (blen_name n) (f n)) l.
Lemma setters_after f n l : forall m, lookup n (escans (setters f l) m) = match find (fun x => String.eqb (blen_name x) n) l with Some x => Some (f x) | None => lookup n m end.
Proof.
  induction l as [|x l IH]; intros m; cbn [setters map escans escan find]; [reflexivity|]. fold (setters f l). rewrite IH. destruct (find _ l) as [y|] eqn:Ey.
  - destruct (String.eqb_spec (blen_name x) n) as [<-|]; [|reflexivity]. apply find_some in Ey as [_ Ey]. apply String.eqb_eq, blen_name_inj in Ey. congruence.
  - unfold lookup. cbn [find fst]. destruct (String.eqb (blen_name x) n); reflexivity.
Qed.
Lemma find_perm f n l l' : Permutation l l' -> match find (fun x => String.eqb (blen_name x) n) l with Some x => Some (f x) | None => None end = match find (fun x => String.eqb (blen_name x) n) l' with Some x => Some (f x) | None => None (A := nat) end.
Proof.
  induction 1 as [|x l l' _ IH|x y l|]; cbn [find]; [reflexivity| | |congruence]; [destruct (String.eqb (blen_name x) n); [reflexivity|exact IH]|].
  destruct (String.eqb_spec (blen_name x) n) as [E|]; [|reflexivity]. destruct (String.eqb_spec (blen_name y) n) as [E'|]; [|reflexivity]. rewrite <- E' in E. apply blen_name_inj in E. congruence.
Qed.
Lemma setters_meq f l l' m m' : Permutation l l' -> meq m m' -> meq (escans (setters f l) m) (escans (setters f l') m').
Proof.
  intros P E n. rewrite !setters_after. pose proof (find_perm f n l l' P) as F. destruct (find _ l), (find _ l'); try congruence; apply E.
Qed.
Lemma setters_silent f l : forall m, emits m (setters f l) = [].
Proof. induction l as [|x l IH]; intros m; cbn; [reflexivity|apply IH]. Qed.
Lemma setters_run w inputs rec f l : forall m st, Encode.eseq w inputs rec m (setters f l) st = Ok (ENext st).
Proof. induction l as [|x l IH]; intros m st; cbn; [reflexivity|apply IH]. Qed.
Lemma setters_twin f l l' : Permutation l l' -> twin (setters f l) (setters f l').
Proof. intros P m m' E. split; [apply setters_meq; assumption|]. rewrite !setters_silent. reflexivity. Qed.
Lemma setters_same f l l' : Permutation l l' -> same (setters f l) (setters f l').
Proof. intros P m m' E. split; [apply setters_meq; assumption|]. intros. rewrite !setters_run. reflexivity. Qed.

(** C60. A hash set may be iterated in any order, another one each time: [ord]. *)
Definition some_order (ord : nat -> list string -> list string) : Prop := forall k l, Permutation l (ord k l).
(** With the order of occurrence the generator is the one of Encode.v (and of all other properties). *)
Theorem C60_model : forall p rf d, ord_code (fun _ l => l) p rf d = enc_code p rf d.
Proof.
  intros p rf d. pose proof (s_top eq (fun l => eq_refl) (fun a a' b b' E F => f_equal2 (@app einstr) E F) (fun c l l' E => f_equal (fun l => [NCond c l]) E) (fun l l' E => f_equal (fun l => [NBreakBlock l]) E)
    (fun i s l l' E => f_equal (fun l => [NLoop i s l]) E) (fun c l l' s r o x args E => f_equal (fun l => [NCondWrap c l s r o x args]) E) (fun _ l => l) (fun _ l => Permutation_refl l) (fun _ l f => eq_refl) p rf d) as H.
  destruct (enc_code p rf d), (ord_code _ p rf d); try contradiction; congruence.
Qed.
Print Assumptions C60_model.
(** Whatever the orders, the generator fails for the same declarations, and otherwise the text it emits is the same: builds are reproducible. *)
Theorem C60_same_text : forall ord ord' p rf d, some_order ord -> some_order ord' ->
  option_map (emits []) (ord_code ord p rf d) = option_map (emits []) (ord_code ord' p rf d).
Proof.
  assert (G : forall ord p rf d, some_order ord -> option_map (emits []) (ord_code ord p rf d) = option_map (emits []) (enc_code p rf d)).
  { intros ord p rf d O. pose proof (s_top twin twin_refl twin_app (fun c l l' => twin_nest (NCond c) l l' (fun _ _ => eq_refl) (fun _ _ => app_nil_r _)) (fun l l' => twin_nest NBreakBlock l l' (fun _ _ => eq_refl) (fun _ _ => app_nil_r _))
      (fun i s l l' => twin_nest (NLoop i s) l l' (fun _ _ => eq_refl) (fun _ _ => app_nil_r _)) (fun c l l' s r o x args => twin_nest (fun l => NCondWrap c l s r o x args) l l' (fun _ _ => eq_refl) (fun _ _ => app_nil_r _))
      ord O (fun k l f => setters_twin f l (ord k l) (O k l)) p rf d) as H.
    destruct (enc_code p rf d) as [l|], (ord_code ord p rf d) as [l'|]; try contradiction; [|reflexivity]. cbn [option_map]. f_equal. symmetry. exact (proj2 (H [] [] (fun n => eq_refl))). }
  intros ord ord' p rf d O O'. rewrite (G ord p rf d O), (G ord' p rf d O'). reflexivity.
Qed.
Print Assumptions C60_same_text.
(** The same for the meaning of the generated code: every property proved of the encoders holds whatever the orders. *)
Theorem C60_same_encoder : forall ord w p rf fuel n args v, some_order ord -> ord_encode ord w p rf fuel n args v = encode w p rf fuel n args v.
Proof.
  intros ord w p rf fuel n args v O. revert n args v. induction fuel as [|fuel IH]; intros n args v; cbn [ord_encode encode]; [reflexivity|]. destruct (p n) as [d|]; [|reflexivity]. cbn [of_some bind].
  pose proof (s_top same same_refl same_app same_cond same_block same_loop same_condwrap ord O (fun k l f => setters_same f l (ord k l) (O k l)) p rf d) as H.
  destruct (enc_code p rf d) as [l|], (ord_code ord p rf d) as [l'|]; try contradiction; [|reflexivity]. cbn [of_some bind]. destruct (bind_params w (d_params d) args []) as [inp| | |]; cbn [bind]; try reflexivity.
  unfold erun_top. destruct (H [] [] (fun n => eq_refl)) as [_ E]. rewrite (E w (fun x => lookup x inp) (encode w p rf fuel) (ord_encode ord w p rf fuel)); [reflexivity|]. intros m vs u. symmetry. apply IH.
Qed.
Print Assumptions C60_same_encoder.

(** Two blen calls in one formula: the sets do differ, and so do the instructions; the text does not. *)
Definition two_text : string := "type t = container { n: u16 = blen(a) :> u16 + blen(b) :> u16, k: u16 = blen(b) :> u16 - blen(a) :> u16, a: container [n] { x: u8 }, b: container [k] { y: u8[..] } };".
Definition backwards (k : nat) (l : list string) : list string := if Nat.even k then rev l else l.
Lemma backwards_order : some_order backwards.
Proof. intros k l. unfold backwards. destruct (Nat.even k); [apply Permutation_rev|apply Permutation_refl]. Qed.
Definition two_value : val := VStruct "t" [("n", VInt U16 0); ("k", VInt U16 9); ("x", VInt U8 7); ("y", VArr [VInt U8 1; VInt U8 2; VInt U8 3])].
Example C60_nonvacuous : some_order backwards /\ match program_of two_text with
  | [(n, d)] => n = "t" /\ let p := prog (program_of two_text) in
      enc_code p 20 d <> None /\ ord_code backwards p 20 d <> enc_code p 20 d /\ option_map (emits []) (ord_code backwards p 20 d) = option_map (emits []) (enc_code p 20 d) /\
      encode prelude_world p 20 3 n [] two_value = Ok [0; 2; 7; 1; 2; 3; 0; 4] /\ ord_encode backwards prelude_world p 20 3 n [] two_value = Ok [0; 2; 7; 1; 2; 3; 0; 4]
  | _ => False
  end.
Proof. split; [exact backwards_order|]. vm_compute. repeat split; try reflexivity; discriminate. Qed.
Print Assumptions C60_nonvacuous.
