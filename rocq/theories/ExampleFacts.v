(** Proofs about the generated code of the shipped specifications (statements: P_Examples.v). *)
From Verif Require Import ScalarFacts ConstIntFacts PreludeFacts UtfFacts DecRef EncRef RtWf RoundTrip Reenc CoderFacts World Data DataFacts Safe SafeFacts Examples.
From Verif Require Import P_Coder P_Data P_Lengths P_Safe.
Open Scope string_scope. Open Scope Z_scope. Open Scope list_scope.
(** What the compiler makes of the texts (computed by the model's tokenizer, parser and analysis). *)
Definition nbt_prog : list (string * decl) := Eval vm_compute in program_of nbt_text.
Definition png_prog : list (string * decl) := Eval vm_compute in program_of png_text.
Definition packet_prog : list (string * decl) := Eval vm_compute in program_of packet_text.
Definition writes (P : list (string * decl)) k n args v b := sencode prelude_world (prog P) 20 (Some prelude_good) k n args v = Ok (b, v).
Ltac rng := apply in_range_iff; match goal with |- min_of ?s <= _ <= max_of ?s => let a := eval vm_compute in (min_of s) in let b := eval vm_compute in (max_of s) in change (min_of s) with a; change (max_of s) with b; lia end.
Lemma le_bytes_snoc : forall n v, le_bytes (S n) v = le_bytes n v ++ [(v / 256 ^ Z.of_nat n) mod 256].
Proof.
  induction n as [|n IH]; intros v; [cbn; rewrite Z.div_1_r; reflexivity|]. change (le_bytes (S (S n)) v) with (v mod 256 :: le_bytes (S n) (v / 256)). rewrite IH. cbn [le_bytes app].
  rewrite Z.div_div by (try lia; apply Z.pow_nonneg; lia). rewrite Nat2Z.inj_succ, Z.pow_succ_r by lia. reflexivity.
Qed.
Lemma be_rev : forall n v, rev (le_bytes n v) = be n v.
Proof. induction n as [|n IH]; intros v; [reflexivity|]. rewrite le_bytes_snoc, rev_app_distr, IH. reflexivity. Qed.
Lemma be_scalar s v : scalar_bytes {| es_scalar := s; es_endian := Big |} v = be (size s) v.
Proof. apply be_rev. Qed.
Lemma be_length : forall n v, List.length (be n v) = n.
Proof. induction n as [|n IH]; intros v; cbn; [reflexivity|rewrite IH; reflexivity]. Qed.

Lemma sencode_S p k n args v : sencode prelude_world p 20 (Some prelude_good) (S k) n args v =
  let! d := of_some (p n) in let! inp := bind_params prelude_world (d_params d) args [] in
  se_top prelude_world p 20 (fun x => lookup x inp) (Some prelude_good) (sencode prelude_world p 20 (Some prelude_good) k) d v.
Proof. reflexivity. Qed.
Ltac step P k := rewrite sencode_S; let r0 := fresh "r0" in let Er0 := fresh "Er0" in remember (sencode prelude_world (prog P) 20 (Some prelude_good) k) as r0 eqn:Er0;
  cbn -[scalar_bytes utf8_encode List.length Z.of_nat in_range Z.pow Z.ltb size16 text16 wrap be prim_enc tag_def kind_def repr_enc se_repr Z.modulo Z.to_nat Z.eqb Nat.eqb arr_size fits].

Lemma tag_cases t : 0 <= t <= 12 -> In t [0; 1; 2; 3; 4; 5; 6; 7; 8; 9; 10; 11; 12].
Proof. intros H. cbn. lia. Qed.
Lemma tag_writes k t : 0 <= t <= 12 -> writes nbt_prog (S k) "Tag" [] (tag_value t) [t].
Proof.
  intros H. apply tag_cases in H. unfold writes. cbn in H. repeat (destruct H as [<-|H]; [vm_compute; reflexivity|]). destruct H.
Qed.
Lemma u16_ok n : Z.of_nat n < 2 ^ 16 -> wrap U16 (Z.of_nat n) = Z.of_nat n /\ wrap U64 (Z.of_nat n) = Z.of_nat n.
Proof. intros H. split; apply wrap_id; rng. Qed.
Lemma i32_ok n : Z.of_nat n < 2 ^ 31 -> wrap I32 (Z.of_nat n) = Z.of_nat n /\ wrap U64 (Z.of_nat n) = Z.of_nat n.
Proof. intros H. split; apply wrap_id; rng. Qed.
Lemma usv_forallb s : Forall usv s -> forallb is_usv s = true.
Proof. intros H. apply forallb_forall. intros c Hc. rewrite Forall_forall in H. specialize (H _ Hc). unfold usv in H. unfold is_usv. rewrite ?orb_true_iff, ?andb_true_iff, ?Z.leb_le, ?Z.ltb_lt. lia. Qed.
Lemma prim_writes s z : in_range s z = true -> prim_enc (PScalar {| es_scalar := s; es_endian := Big |}) (VInt s z) = Ok (be (size s) z).
Proof. intros H. cbn -[scalar_bytes in_range]. rewrite be_scalar, H. destruct s; reflexivity. Qed.
Lemma string_writes k s : text_ok s -> writes nbt_prog (S k) "NBTString" [] (VStruct "NBTString" [("len", size16 s); ("value", VStr s)]) (text16 s).
Proof.
  intros (H1 & H2). unfold writes. step nbt_prog k. unfold se_prim. destruct (u16_ok _ H2) as (E1 & E2). rewrite E1, E2. rewrite (usv_forallb _ H1), Z.eqb_refl. cbn [andb].
  destruct (Z.ltb_spec (Z.of_nat (List.length (utf8_encode s))) (2 ^ 63)); [|lia]. rewrite prim_writes by (rng). reflexivity.
Qed.

Lemma ints_write s : forall l, Forall (fun z => in_range s z = true) l -> mapM (prim_enc (PScalar {| es_scalar := s; es_endian := Big |})) (map (VInt s) l) = Ok (map (be (size s)) l).
Proof. induction l as [|z l IH]; intros H; [reflexivity|]. inversion H; subst. cbn [map mapM]. rewrite prim_writes by assumption. cbn [bind]. rewrite IH by assumption. reflexivity. Qed.
Lemma fits_small k (l : list val) : Z.of_nat k <= 8 -> Z.of_nat (List.length l) < 2 ^ 31 -> fits k l = true.
Proof. intros H1 H2. unfold fits. apply Z.ltb_lt. nia. Qed.
Lemma ints_range s n l : Forall (signed n) l -> (forall z, signed n z -> in_range s z = true) -> Forall (fun z => in_range s z = true) l.
Proof. intros H H'. eapply Forall_impl; [exact H'|exact H]. Qed.
Lemma signed_range z : (signed 8 z -> in_range I8 z = true) /\ (signed 16 z -> in_range I16 z = true) /\ (signed 32 z -> in_range I32 z = true) /\ (signed 64 z -> in_range I64 z = true).
Proof. unfold signed. repeat split; intros H; rng. Qed.
Lemma array_writes k : (forall l, Z.of_nat (List.length l) < 2 ^ 31 -> Forall (signed 32) l -> writes nbt_prog (S k) "IntArray" [] (counted "IntArray" (map (VInt I32) l)) (be 4 (Z.of_nat (List.length l)) ++ flat_map (be 4) l)) /\
  (forall l, Z.of_nat (List.length l) < 2 ^ 31 -> Forall (signed 64) l -> writes nbt_prog (S k) "LongArray" [] (counted "LongArray" (map (VInt I64) l)) (be 4 (Z.of_nat (List.length l)) ++ flat_map (be 8) l)).
Proof.
  split; intros l H1 H2; unfold writes, counted; step nbt_prog k; destruct (i32_ok _ H1) as (E1 & E2); rewrite !map_length, !E1, !E2, Z.eqb_refl, Z.mod_small, Z.eqb_refl by lia; rewrite fits_small by (rewrite ?map_length; lia); cbn [andb]; unfold se_prim;
    rewrite prim_writes by rng; rewrite ints_write by (apply (ints_range _ _ _ H2); intros z; apply signed_range); cbn -[be Z.of_nat concat List.length]; rewrite flat_map_concat_map; reflexivity.
Qed.
Lemma list_writes k t vs bs : 0 <= t <= 12 -> Z.of_nat (List.length vs) < 2 ^ 31 -> Forall2 (fun v b => writes nbt_prog (S k) "Payload" [tag_value t] v b) vs bs ->
  writes nbt_prog (S (S k)) "List" [] (VStruct "List" [("type_id", tag_value t); ("length", VInt I32 (Z.of_nat (List.length vs))); ("items", VArr vs)]) (t :: be 4 (Z.of_nat (List.length vs)) ++ concat bs).
Proof.
  intros Ht H1 Hw. unfold writes. pose proof (tag_writes k t Ht) as T. unfold writes in T. remember (tag_value t) as tv eqn:Etv. step nbt_prog (S k). assert (T' : r0 "Tag" [] tv = Ok ([t], tv)) by exact T. rewrite T'. cbn [bind app].
  destruct (i32_ok _ H1) as (E1 & E2). rewrite !E1, !E2. unfold se_prim. rewrite prim_writes by rng. cbn [bind].
  match goal with |- context [if ?c then Ok vs else Ok vs] => replace (if c then Ok vs else Ok vs) with (@Ok ioerr _ vs) by (destruct c; reflexivity) end. cbn [bind]. rewrite Nat2Z.id, Z.eqb_refl, fits_small by (cbn; lia). cbn [andb].
  assert (E : se_times (fun v => r0 "Payload" [tv] v) (List.length vs) vs = Ok (combine bs vs)).
  { clear - Hw Er0. induction Hw as [|v b vs bs H Hw IH]; [reflexivity|]. cbn [List.length se_times combine]. unfold writes in H. rewrite <- Er0 in H. rewrite H. cbn [bind]. rewrite IH. reflexivity. }
  rewrite E. cbn [bind]. assert (L : map fst (combine bs vs) = bs /\ map snd (combine bs vs) = vs).
  { clear - Hw. induction Hw as [|v b vs bs H Hw (IH1 & IH2)]; [split; reflexivity|]. cbn. rewrite IH1, IH2. split; reflexivity. }
  destruct L as (-> & ->). reflexivity.
Qed.
Lemma no_term_ok bs : Forall (fun b => exists h r, b = h :: r /\ h <> 0) bs -> no_term [0] bs = true.
Proof.
  induction 1 as [|b bs (h & r & -> & H) Hb IH]; [reflexivity|]. cbn [no_term]. rewrite IH. cbn. destruct (Z.eqb_spec h 0); [contradiction|reflexivity].
Qed.
Lemma compound_writes k vs bs : Forall2 (fun v b => writes nbt_prog k "CompoundItem" [] v b) vs bs -> Forall (fun b => exists h r, b = h :: r /\ h <> 0) bs ->
  writes nbt_prog (S k) "Compound" [] (VStruct "Compound" [("items", VArr vs)]) (concat bs ++ [0]).
Proof.
  intros Hw Hb. unfold writes. step nbt_prog k.
  assert (E : mapM (fun v => r0 "CompoundItem" [] v) vs = Ok (combine bs vs)).
  { clear - Hw Er0. induction Hw as [|v b vs bs H Hw IH]; [reflexivity|]. cbn [mapM combine]. unfold writes in H. rewrite <- Er0 in H. rewrite H. cbn [bind]. rewrite IH. reflexivity. }
  rewrite E. cbn [bind]. assert (L : map fst (combine bs vs) = bs /\ map snd (combine bs vs) = vs).
  { clear - Hw. induction Hw as [|v b vs bs H Hw (IH1 & IH2)]; [split; reflexivity|]. cbn. rewrite IH1, IH2. split; reflexivity. }
  destruct L as (-> & ->). change (prim_enc (PScalar u8be) (VInt U8 0)) with (@Ok ioerr _ [0]). cbn -[no_term]. rewrite no_term_ok by assumption. reflexivity.
Qed.
Lemma item_writes k n x b : text_ok n -> 0 <= tag_of x <= 12 -> writes nbt_prog (S k) "Payload" [tag_value (tag_of x)] (nbt_value x) b ->
  writes nbt_prog (S (S k)) "CompoundItem" [] (named_value n x) (tag_of x :: text16 n ++ b).
Proof.
  intros (H1 & H2) Ht Hw. unfold writes, named_value in *. pose proof (tag_writes k (tag_of x) Ht) as T. unfold writes in T. remember (tag_value (tag_of x)) as tv eqn:Etv. remember (nbt_value x) as xv eqn:Exv.
  step nbt_prog (S k). assert (T' : r0 "Tag" [] tv = Ok ([tag_of x], tv)) by exact T. rewrite T'. cbn [bind]. destruct (u16_ok _ H2) as (E1 & E2). rewrite !E1, !E2. unfold se_prim. rewrite prim_writes by rng. rewrite (usv_forallb _ H1), Z.eqb_refl. cbn [bind andb].
  destruct (Z.ltb_spec (Z.of_nat (List.length (utf8_encode n))) (2 ^ 63)); [|lia]. cbn [bind]. assert (Hw' : r0 "Payload" [tv] xv = Ok (b, xv)) by exact Hw. rewrite Hw'. cbn [bind app]. rewrite <- app_assoc. reflexivity.
Qed.
Ltac tagv := match goal with |- context [tag_value ?t] => let n := eval vm_compute in (nth (Z.to_nat t) tag_names "") in change (tag_value t) with (VEnum tag_def (VNamed n)) end.
Lemma payload_writes k : (forall z, in_range I8 z = true -> writes nbt_prog (S k) "Payload" [tag_value 1] (payload "Byte" (VInt I8 z)) (be 1 z)) /\
  (forall z, in_range I16 z = true -> writes nbt_prog (S k) "Payload" [tag_value 2] (payload "Short" (VInt I16 z)) (be 2 z)) /\
  (forall z, in_range I32 z = true -> writes nbt_prog (S k) "Payload" [tag_value 3] (payload "Int" (VInt I32 z)) (be 4 z)) /\
  (forall z, in_range I64 z = true -> writes nbt_prog (S k) "Payload" [tag_value 4] (payload "Long" (VInt I64 z)) (be 8 z)) /\
  (forall z, in_range U32 z = true -> writes nbt_prog (S k) "Payload" [tag_value 5] (payload "Float" (VF32 z)) (be 4 z)) /\
  (forall z, in_range U64 z = true -> writes nbt_prog (S k) "Payload" [tag_value 6] (payload "Double" (VF64 z)) (be 8 z)) /\
  (forall v b, writes nbt_prog k "NBTString" [] v b -> writes nbt_prog (S k) "Payload" [tag_value 8] (payload "String" v) b) /\
  (forall v b, writes nbt_prog k "List" [] v b -> writes nbt_prog (S k) "Payload" [tag_value 9] (payload "List" v) b) /\
  (forall v b, writes nbt_prog k "Compound" [] v b -> writes nbt_prog (S k) "Payload" [tag_value 10] (payload "Compound" v) b) /\
  (forall v b, writes nbt_prog k "IntArray" [] v b -> writes nbt_prog (S k) "Payload" [tag_value 11] (payload "IntArray" v) b) /\
  (forall v b, writes nbt_prog k "LongArray" [] v b -> writes nbt_prog (S k) "Payload" [tag_value 12] (payload "LongArray" v) b).
Proof.
  repeat split; intros; unfold writes in *; tagv; step nbt_prog k; change (en_name tag_def) with "Tag"; cbn -[be prim_enc].
  1-4: unfold se_prim; rewrite prim_writes by assumption; reflexivity.
  1-2: unfold se_prim; cbn -[in_range scalar_bytes]; rewrite H; unfold u32be, u64be; rewrite be_scalar; reflexivity.
  all: rewrite H; reflexivity.
Qed.

Section NbtInd.
  Variable P : nbt -> Prop.
  Hypothesis HB : forall z, P (NByte z). Hypothesis HS : forall z, P (NShort z). Hypothesis HI : forall z, P (NInt z). Hypothesis HL : forall z, P (NLong z).
  Hypothesis HF : forall z, P (NFloat z). Hypothesis HD : forall z, P (NDouble z). Hypothesis HBA : forall l, P (NByteArray l). Hypothesis HSt : forall s, P (NString s).
  Hypothesis HLi : forall t l, Forall P l -> P (NList t l). Hypothesis HC : forall l, Forall (fun nx => P (snd nx)) l -> P (NCompound l).
  Hypothesis HIA : forall l, P (NIntArray l). Hypothesis HLA : forall l, P (NLongArray l).
  Fixpoint nbt_ind' (x : nbt) : P x :=
    match x with
    | NByte z => HB z | NShort z => HS z | NInt z => HI z | NLong z => HL z | NFloat z => HF z | NDouble z => HD z | NByteArray l => HBA l | NString s => HSt s
    | NList t l => HLi t l ((fix go l : Forall P l := match l with [] => Forall_nil _ | x :: l => Forall_cons _ (nbt_ind' x) (go l) end) l)
    | NCompound l => HC l ((fix go l : Forall (fun nx => P (snd nx)) l := match l with [] => Forall_nil _ | nx :: l => Forall_cons _ (nbt_ind' (snd nx)) (go l) end) l)
    | NIntArray l => HIA l | NLongArray l => HLA l
    end.
End NbtInd.

(** How deep the readers and writers recurse. *)
Fixpoint depth (x : nbt) : nat :=
  match x with
  | NList _ l => 3 + fold_right (fun x n => Nat.max (depth x) n) 0%nat l
  | NCompound l => 4 + fold_right (fun nx n => Nat.max (depth (snd nx)) n) 0%nat l
  | _ => 2
  end.
Lemma tag_range x : 1 <= tag_of x <= 12. Proof. destruct x; cbn; lia. Qed.
Lemma nbt_writes x : nbt_ok x -> no_bytes x -> forall k, (depth x <= k)%nat -> writes nbt_prog k "Payload" [tag_value (tag_of x)] (nbt_value x) (wire x).
Proof.
  induction x as [z|z|z|z|z|z|l|s|t l IH|l IH|l|l] using nbt_ind'; intros O N k Hk; cbn [depth] in Hk; (destruct k as [|k]; [cbn in Hk; lia|]); cbn [nbt_value wire tag_of]; cbn [nbt_ok] in O; cbn [no_bytes] in N; pose proof (payload_writes k) as (W1 & W2 & W3 & W4 & W5 & W6 & W8 & W9 & W10 & W11 & W12).
  - apply W1, signed_range, O. - apply W2, signed_range, O. - apply W3, signed_range, O. - apply W4, signed_range, O.
  - apply W5. rng. - apply W6. rng.
  - destruct N.
  - apply W8. destruct k as [|k]; [lia|]. apply string_writes. exact O.
  - apply W9. destruct O as (Ht & Hl & O). destruct k as [|[|k]]; try lia. rewrite flat_map_concat_map. rewrite <- (map_length nbt_value l) at 1 2. rewrite <- (map_length nbt_value l) in Hl.
    apply list_writes; [exact Ht|exact Hl|]. clear Hl W1 W2 W3 W4 W5 W6 W8 W9 W10 W11 W12. induction IH as [|x l H IH IH']; [constructor|]. destruct O as ((<- & O) & O'), N as (N & N'). cbn [fold_right] in Hk. cbn [map]. constructor.
    + apply H; [exact O|exact N|lia].
    + apply IH'; [exact O'|exact N'|lia].
  - apply W10. destruct k as [|[|[|k]]]; try lia. rewrite flat_map_concat_map. apply compound_writes.
    + clear W1 W2 W3 W4 W5 W6 W8 W9 W10 W11 W12. induction IH as [|nx l H IH IH']; [constructor|]. destruct O as ((On & O) & O'), N as (N & N'). cbn [fold_right] in Hk. cbn [map]. constructor.
      * change (VStruct "CompoundItem" _) with (named_value (fst nx) (snd nx)). pose proof (tag_range (snd nx)). apply item_writes; [exact On|lia|]. apply H; [exact O|exact N|lia].
      * apply IH'; [exact O'|exact N'|lia].
    + clear. induction l as [|nx l IH]; [constructor|]. cbn [map]. constructor; [|exact IH]. eexists _, _. split; [reflexivity|]. pose proof (tag_range (snd nx)). lia.
  - apply W11. destruct k as [|k]; [lia|]. destruct O as (O1 & O2). exact (proj1 (array_writes k) l O1 O2).
  - apply W12. destruct k as [|k]; [lia|]. destruct O as (O1 & O2). exact (proj2 (array_writes k) l O1 O2).
Qed.

(** *** Reading a file of named tags up to its end *)
Lemma nbt_ok_prog : prog_ok nbt_prog 20 (prelude_marks []) = true.
Proof. vm_compute. reflexivity. Qed.
Lemma nbt_rt k n args v b : foreign_of (prog nbt_prog) n = None -> writes nbt_prog k n args v b ->
  forall rest, encode prelude_world (prog nbt_prog) 20 k n args v = Ok b /\ decode prelude_world (prog nbt_prog) 20 k n args (b ++ rest) = Ok (v, rest).
Proof. intros F H rest. exact (C31_prelude_roundtrip_partial nbt_prog 20 [] nbt_ok_prog k n args v b rest F H (fun E => False_ind _ (Bool.diff_false_true E))). Qed.
Lemma nbt_decode k n args l : decode prelude_world (prog nbt_prog) 20 k n args l = sdecode prelude_world (prog nbt_prog) 20 k n args l.
Proof. exact (proj1 (decode_refines prelude_world (prog nbt_prog) 20 prelude_world_suffixing (proj1 (proj2 (prog_ok_compiles _ _ _ nbt_ok_prog))) k n args l)). Qed.
Lemma named_writes k n x : text_ok n -> nbt_ok x -> no_bytes x -> (1 + depth x <= k)%nat -> writes nbt_prog k "CompoundItem" [] (named_value n x) (named n x).
Proof.
  intros Hn O N Hk. destruct k as [|[|k]]; [lia|pose proof (eq_refl : depth x = depth x); destruct x; cbn in Hk; lia|]. apply item_writes; [exact Hn|pose proof (tag_range x); lia|]. apply nbt_writes; [exact O|exact N|lia].
Qed.
Lemma until_end (f : list Z -> res ioerr (val * list Z)) (vb : list (val * list Z)) : Forall (fun x => exists h t, snd x = h :: t /\ h <> 0) vb ->
  (forall x rest, In x vb -> f (snd x ++ rest) = Ok (fst x, rest)) -> forall fuel, (List.length (concat (map snd vb)) < fuel)%nat -> sd_until (fun n => n) [0] f fuel (concat (map snd vb)) = Ok (map fst vb, []).
Proof.
  induction 1 as [|x vb (h & t & Ex & Hh) Hb IH]; intros Hf fuel Hl; (destruct fuel as [|fuel]; [lia|]).
  - reflexivity.
  - cbn [map concat] in *. rewrite Ex in *. cbn [app] in *. cbn [sd_until]. rewrite firstn_all2 by lia. cbn [List.length Nat.eqb Nat.ltb Nat.leb firstn zlist_eqb].
    destruct (Z.eqb_spec h 0); [contradiction|]. cbn [andb]. specialize (Hf x (concat (map snd vb)) (or_introl eq_refl)) as Hx. rewrite Ex in Hx. cbn [app] in Hx. rewrite Hx. cbn [bind].
    cbn [List.length] in *. rewrite app_length in *. destruct (Nat.leb_spec (List.length (concat (map snd vb))) (List.length t + List.length (concat (map snd vb)))) as [_|G]; [|lia].
    rewrite IH; [reflexivity|intros y rest Hy; apply Hf; right; exact Hy|lia].
Qed.
Lemma nbt_file k l : (forall n x, In (n, x) l -> text_ok n /\ nbt_ok x /\ no_bytes x /\ (1 + depth x <= k)%nat) ->
  decode prelude_world (prog nbt_prog) 20 (S k) "Compound" [] (flat_map (fun nx => named (fst nx) (snd nx)) l) = Ok (VStruct "Compound" [("items", VArr (map (fun nx => named_value (fst nx) (snd nx)) l))], []).
Proof.
  intros H. rewrite nbt_decode. set (b := flat_map _ l).
  assert (E : forall f, sdecode prelude_world (prog nbt_prog) 20 (S k) "Compound" [] f = let! (vs, l) := sd_until (fun n => n) [0] (sdecode prelude_world (prog nbt_prog) 20 k "CompoundItem" []) (S (List.length f)) f in Ok (VStruct "Compound" [("items", VArr vs)], l)).
  { intros f. cbn -[sd_until]. set (u := sd_until _ _ _ _ _). destruct u as [[vs l0]| | |]; reflexivity. }
  rewrite E. pose (vb := map (fun nx => (named_value (fst nx) (snd nx), named (fst nx) (snd nx))) l).
  assert (Eb : b = concat (map snd vb)) by (unfold b, vb; rewrite map_map, flat_map_concat_map; reflexivity). assert (Ev : map (fun nx => named_value (fst nx) (snd nx)) l = map fst vb) by (unfold vb; rewrite map_map; reflexivity).
  rewrite Eb, Ev. rewrite until_end; [reflexivity| | |lia].
  - apply Forall_forall. intros x Hx. unfold vb in Hx. apply in_map_iff in Hx as (nx & <- & _). cbn [snd]. eexists _, _. split; [reflexivity|]. pose proof (tag_range (snd nx)). lia.
  - intros x rest Hx. unfold vb in Hx. apply in_map_iff in Hx as ([n x0] & <- & Hi). cbn [fst snd]. destruct (H _ _ Hi) as (H1 & H2 & H3 & H4).
    rewrite <- nbt_decode. apply (nbt_rt k "CompoundItem" [] _ _ eq_refl (named_writes k n x0 H1 H2 H3 H4) rest).
Qed.

(** *** PNG *)
Lemma bytes_range l : bytes_ok l -> Forall (fun z => in_range U8 z = true) l.
Proof. intros H. eapply Forall_impl; [|exact H]. intros z Hz. unfold byte_ok in Hz. rng. Qed.
Lemma bytes_concat l : bytes_ok l -> concat (map (be (size U8)) l) = l.
Proof. induction 1 as [|z l Hz Hl IH]; [reflexivity|]. unfold byte_ok in Hz. cbn [map concat size]. cbn [size] in IH. rewrite IH. cbn -[Z.modulo Z.div]. rewrite Z.div_1_r, Z.mod_small by lia. reflexivity. Qed.
Lemma wrap64 n : Z.of_nat n < 2 ^ 32 -> wrap U64 (Z.of_nat n) = Z.of_nat n /\ wrap U32 (Z.of_nat n) = Z.of_nat n.
Proof. intros H. split; apply wrap_id; rng. Qed.
Lemma fits_byte (l : list val) : Z.of_nat (List.length l) < 2 ^ 32 -> fits 1 l = true.
Proof. intros H. unfold fits. apply Z.ltb_lt. lia. Qed.
Lemma chunk_writes k c : chunk_ok c -> writes png_prog (S k) "PngChunk" [] (chunk_value c) (chunk_bytes c).
Proof.
  destruct c as [ty data crc]. intros (H1 & H2 & H3 & H4). cbn [ch_type ch_data ch_crc] in *. unfold writes, chunk_value, chunk_bytes, bytes_val. cbn [ch_type ch_data ch_crc]. step png_prog k.
  destruct (wrap64 _ H4) as (E1 & E2). rewrite !E1, map_length, Z.eqb_refl, Z.mod_small, Z.eqb_refl by lia. rewrite fits_byte by (rewrite map_length; exact H4). cbn [andb]. unfold se_prim.
  rewrite !prim_writes by rng. rewrite ints_write by (apply bytes_range; exact H3). cbn -[be Z.of_nat concat List.length map]. rewrite bytes_concat by exact H3. rewrite <- !app_assoc. reflexivity.
Qed.
Lemma map_writes P k n l (f : val -> res ioerr (list Z * val)) vs bs : f = sencode prelude_world (prog P) 20 (Some prelude_good) k n l -> Forall2 (fun v b => writes P k n l v b) vs bs ->
  mapM f vs = Ok (combine bs vs) /\ map fst (combine bs vs) = bs /\ map snd (combine bs vs) = vs.
Proof.
  intros -> Hw. induction Hw as [|v b vs bs H Hw (IH1 & IH2 & IH3)]; [repeat split; reflexivity|]. cbn [mapM combine map fst snd]. unfold writes in H. rewrite H. cbn [bind]. rewrite IH1, IH2, IH3. repeat split; reflexivity.
Qed.
Lemma f2_map {A} (f : A -> val) (g : A -> list Z) (R : val -> list Z -> Prop) l : (forall x, In x l -> R (f x) (g x)) -> Forall2 R (map f l) (map g l).
Proof. induction l as [|x l IH]; intros H; [constructor|]. cbn [map]. constructor; [apply H; left; reflexivity|]. apply IH. intros y Hy. apply H. right. exact Hy. Qed.
Lemma nonempty_ok {A} (g : A -> list Z) l : (forall x, In x l -> g x <> []) -> all_nonempty (map g l) = true.
Proof. intros H. unfold all_nonempty. apply forallb_forall. intros b Hb. apply in_map_iff in Hb as (x & <- & Hx). specialize (H _ Hx). destruct (g x); [contradiction|reflexivity]. Qed.
Lemma png_writes k s cs : List.length s = 8%nat -> bytes_ok s -> Forall chunk_ok cs -> writes png_prog (S (S k)) "Png" [] (png_value s cs) (s ++ flat_map chunk_bytes cs).
Proof.
  intros H1 H2 H3. unfold writes, png_value, bytes_val. step png_prog (S k). rewrite map_length, H1. change (8 mod 2 ^ 64 =? Z.of_nat 8) with true. change (8 =? Z.of_nat 8) with true. cbv iota. rewrite fits_byte by (rewrite map_length, H1; cbn; lia). cbn [andb].
  rewrite ints_write by (apply bytes_range; exact H2). cbn [bind].
  destruct (map_writes png_prog (S k) "PngChunk" [] (fun v => r0 "PngChunk" [] v) (map chunk_value cs) (map chunk_bytes cs)) as (E1 & E2 & E3).
  - rewrite Er0. reflexivity.
  - apply f2_map. intros c Hc. apply chunk_writes. rewrite Forall_forall in H3. auto.
  - rewrite E1. cbn [bind]. rewrite E2, E3, nonempty_ok by (intros c _; unfold chunk_bytes; discriminate). cbn [bind]. rewrite bytes_concat by exact H2. rewrite flat_map_concat_map. reflexivity.
Qed.

(** *** Packets *)
Lemma body_writes k : (forall s, Forall usv s -> Z.of_nat (List.length (utf8_encode s)) < 2 ^ 32 ->
    writes packet_prog (S k) "ItemBody" [VEnum kind_def (VNamed "String")] (VVariantS "ItemBody" "String" [("len", VInt U32 (Z.of_nat (List.length (utf8_encode s)))); ("string", VStr s)]) (be 4 (Z.of_nat (List.length (utf8_encode s))) ++ utf8_encode s)) /\
  (forall z, 0 <= z < 2 ^ 32 -> writes packet_prog (S k) "ItemBody" [VEnum kind_def (VNamed "Integer")] (VVariant "ItemBody" "Integer" (VInt U32 z)) (be 4 z)) /\
  (forall z, 0 <= z < 2 ^ 32 -> writes packet_prog (S k) "ItemBody" [VEnum kind_def (VNamed "Float")] (VVariant "ItemBody" "Float" (VInt U32 z)) (be 4 z)) /\
  (forall z, 0 <= z < 2 ^ 32 -> writes packet_prog (S k) "ItemBody" [VEnum kind_def (VNamed "Long")] (VVariant "ItemBody" "Long" (VInt U32 z)) (be 4 z)).
Proof.
  split; [intros s H1 H2|repeat split; intros z Hz]; unfold writes; step packet_prog k; change (en_name kind_def) with "TypeId"; cbn -[be prim_enc utf8_encode wrap Z.of_nat List.length Z.ltb Z.eqb Z.pow].
  2-4: unfold se_prim; rewrite prim_writes by rng; reflexivity.
  destruct (wrap64 _ H2) as (E1 & E2). rewrite !E2, !E1. rewrite (usv_forallb _ H1), Z.eqb_refl. cbn [andb]. destruct (Z.ltb_spec (Z.of_nat (List.length (utf8_encode s))) (2 ^ 63)) as [_|G]; [|lia].
  unfold se_prim. rewrite prim_writes by rng. reflexivity.
Qed.
Lemma kind_writes k i n : In (i, n) (combine [0; 1; 2; 3] kind_names) -> writes packet_prog (S k) "TypeId" [] (VEnum kind_def (VNamed n)) [i].
Proof. intros H. cbn in H. repeat (destruct H as [H|H]; [injection H as <- <-; vm_compute; reflexivity|]). destruct H. Qed.
Lemma item_writes' k i n c v b : In (i, n) (combine [0; 1; 2; 3] kind_names) -> 0 <= c < 2 ^ 16 -> writes packet_prog (S k) "ItemBody" [VEnum kind_def (VNamed n)] v b ->
  writes packet_prog (S (S k)) "Item" [] (VStruct "Item" [("code", VInt U16 c); ("type_id", VEnum kind_def (VNamed n)); ("body", v)]) (be 2 c ++ [i] ++ b).
Proof.
  intros H Hc Hb. pose proof (kind_writes k i n H) as T. unfold writes in *. remember (VEnum kind_def (VNamed n)) as tv eqn:Etv. step packet_prog (S k). unfold se_prim. rewrite prim_writes by rng. cbn [bind].
  rewrite T. cbn [bind]. rewrite Hb. cbn [bind]. rewrite <- app_assoc. reflexivity.
Qed.
Lemma item_ok_writes k i : item_ok i -> writes packet_prog (S (S k)) "Item" [] (item_value i) (item_bytes i).
Proof.
  destruct (body_writes k) as (W0 & W1 & W2 & W3). destruct i as [c s|c z|c z|c z]; intros H; cbn [item_value item_bytes]; cbn [item_ok] in H; apply item_writes'; try tauto; try (cbn; tauto).
  - destruct H as (_ & A & B). exact (W0 s A B). - exact (W1 z (proj2 H)). - exact (W2 z (proj2 H)). - exact (W3 z (proj2 H)).
Qed.
Lemma be1 z : 0 <= z < 256 -> be 1 z = [z].
Proof. intros H. cbn -[Z.modulo Z.div]. rewrite Z.div_1_r, Z.mod_small by lia. reflexivity. Qed.
Lemma packet_writes k id c1 l c2 : byte_ok id -> byte_ok c1 -> byte_ok c2 -> Forall item_ok l -> Z.of_nat (List.length (body_bytes l)) < 2 ^ 32 ->
  writes packet_prog (S (S (S k))) "Packet" [] (packet_value id c1 l c2) (packet_bytes id c1 l c2).
Proof.
  unfold byte_ok. intros H1 H2 H3 H4 H5. unfold writes, packet_value, packet_bytes. step packet_prog (S (S k)). unfold se_prim. rewrite !prim_writes by rng. cbn [bind].
  destruct (map_writes packet_prog (S (S k)) "Item" [] (fun v => r0 "Item" [] v) (map item_value l) (map item_bytes l)) as (E1 & E2 & E3).
  - rewrite Er0. reflexivity.
  - apply f2_map. intros i Hi. apply item_ok_writes. rewrite Forall_forall in H4. auto.
  - rewrite E1. cbn [bind]. rewrite E2, E3, nonempty_ok by (intros c _; destruct c; unfold item_bytes; discriminate). cbn [bind]. rewrite <- flat_map_concat_map. change (flat_map item_bytes l) with (body_bytes l).
    destruct (wrap64 _ H5) as (G1 & G2). rewrite !G2, !G1, Z.mod_small, Nat2Z.id, Nat.eqb_refl by lia. rewrite prim_writes by rng. cbn [bind].
    change (size U8) with 1%nat. change (size U32) with 4%nat. rewrite !be1 by lia. cbn -[body_bytes Z.of_nat be]. rewrite <- ?app_assoc. reflexivity.
Qed.
Lemma nbt_compiled : compiled nbt_text = Some nbt_prog.
Proof. vm_compute. reflexivity. Qed.

(** *** Reading PNG: only what is in the format *)
Lemma png_ok_prog : prog_ok png_prog 20 (prelude_marks ["Png"]) = true. Proof. vm_compute. reflexivity. Qed.
Lemma png_data_prog : data_prog png_prog 20 = true. Proof. vm_compute. reflexivity. Qed.
Lemma png_one_rep : one_rep_program (prog png_prog) 20 (fun _ => true) (fun _ => false).
Proof. intros n d H _. apply lookup_some_in in H. cbn [In png_prog] in H. repeat (destruct H as [H|H]; [injection H as <- <-; vm_compute; reflexivity|]). contradiction. Qed.
Notation phas := (has (prog png_prog) prelude_values).
Lemma has_int s v : phas (RTInt s) v -> exists z, v = VInt s z /\ in_range s z = true.
Proof. intros H. inversion H; subst. eauto. Qed.
Lemma has_bytes v : phas (RTVec (RTInt U8)) v -> exists l, v = bytes_val l /\ bytes_ok l.
Proof.
  intros H. inversion H as [| | | |? l Hl _| | | | | | | | |]; subst. clear H. induction l as [|x l IH]; [exists []; split; [reflexivity|constructor]|].
  destruct IH as (bl & E & B); [intros y Hy; apply Hl; right; exact Hy|]. destruct (has_int U8 x (Hl x (or_introl eq_refl))) as (z & -> & Hz). exists (z :: bl). unfold bytes_val in *. cbn [map]. injection E as ->. split; [reflexivity|].
  constructor; [|exact B]. apply in_range_iff in Hz. change (min_of U8) with 0 in Hz. change (max_of U8) with 255 in Hz. unfold byte_ok. lia.
Qed.
Lemma has_struct n d ts v : prog png_prog n = Some d -> data_of (prog png_prog) d = Some (GStruct ts) -> phas (RTNamed n) v -> exists fs, v = VStruct n fs /\ has_fields (prog png_prog) prelude_values ts fs.
Proof.
  intros Ep Ed H. inversion H; subst; match goal with A : prog png_prog n = Some ?d' |- _ => rewrite Ep in A; injection A as <- end; match goal with A : data_of _ d = Some _ |- _ => rewrite Ed in A; try discriminate A; injection A as <- end.
  eauto.
Qed.
Lemma chunk_has v : phas (RTNamed "PngChunk") v -> exists n ty data crc, v = VStruct "PngChunk" [("length", VInt U32 n); ("chunk_type", VInt U32 ty); ("data", bytes_val data); ("crc", VInt U32 crc)] /\
  0 <= n < 2 ^ 32 /\ 0 <= ty < 2 ^ 32 /\ bytes_ok data /\ 0 <= crc < 2 ^ 32.
Proof.
  intros H. eapply (has_struct "PngChunk") in H; [|reflexivity|reflexivity]. destruct H as (fs & -> & H).
  repeat match goal with H : has_fields _ _ _ _ |- _ => inversion H; subst; clear H end.
  repeat match goal with H : phas (RTInt _) _ |- _ => apply has_int in H as (? & -> & ?) | H : phas (RTVec _) _ |- _ => apply has_bytes in H as (? & -> & ?) end.
  repeat match goal with H : in_range U32 _ = true |- _ => apply in_range_iff in H; change (min_of U32) with 0 in H; change (max_of U32) with (2 ^ 32 - 1) in H end.
  do 4 eexists. split; [reflexivity|]. repeat split; try assumption; lia.
Qed.
Lemma png_has v : phas (RTNamed "Png") v -> exists s l, v = VStruct "Png" [("header", bytes_val s); ("chunks", VArr l)] /\ bytes_ok s /\ (forall x, In x l -> phas (RTNamed "PngChunk") x).
Proof.
  intros H. eapply (has_struct "Png") in H; [|reflexivity|reflexivity]. destruct H as (fs & -> & H).
  repeat match goal with H : has_fields _ _ _ _ |- _ => inversion H; subst; clear H end.
  match goal with H : phas (RTVec (RTInt _)) _ |- _ => apply has_bytes in H as (? & -> & ?) end. match goal with H : phas (RTVec _) _ |- _ => inversion H; subst end. eauto.
Qed.
Ltac step0 k := cbn [sencode]; let r0 := fresh "r0" in let Er0 := fresh "Er0" in remember (sencode prelude_world (prog png_prog) 20 None k) as r0 eqn:Er0;
  cbn -[scalar_bytes List.length Z.of_nat in_range Z.pow Z.ltb wrap be prim_enc Z.modulo Z.to_nat Z.eqb Nat.eqb fits bytes_val].
Lemma chunk_inv k v b v' : phas (RTNamed "PngChunk") v -> sencode prelude_world (prog png_prog) 20 None k "PngChunk" [] v = Ok (b, v') -> exists c, chunk_ok c /\ v = chunk_value c /\ b = chunk_bytes c.
Proof.
  intros H E. destruct (chunk_has _ H) as (n & ty & data & crc & -> & H1 & H2 & H3 & H4). destruct k as [|k]; [discriminate E|]. revert E. step0 k. unfold se_prim. rewrite !prim_writes by rng. cbn [bind]. unfold bytes_val. cbn [arr_of bind].
  rewrite map_length. replace (wrap U64 n) with n by (symmetry; apply wrap_id; rng). rewrite Z.mod_small by lia. destruct (Z.eqb_spec n (Z.of_nat (List.length data))) as [En|]; [|discriminate].
  rewrite ints_write by (apply bytes_range; exact H3). cbn [bind]. rewrite bytes_concat by exact H3. intros E. apply Ok_inj in E. injection E as <- _.
  exists {| ch_type := ty; ch_data := data; ch_crc := crc |}. unfold chunk_ok, chunk_value, chunk_bytes, bytes_val. cbn [ch_type ch_data ch_crc]. rewrite <- En. rewrite <- ?app_assoc. repeat split; try assumption; lia.
Qed.
Lemma png_inv k v b v' : phas (RTNamed "Png") v -> sencode prelude_world (prog png_prog) 20 None k "Png" [] v = Ok (b, v') ->
  exists s cs, List.length s = 8%nat /\ bytes_ok s /\ Forall chunk_ok cs /\ v = png_value s cs /\ b = s ++ flat_map chunk_bytes cs.
Proof.
  intros H E. destruct (png_has _ H) as (s & l & -> & H1 & H2). destruct k as [|k]; [discriminate E|]. revert E. step0 k. unfold bytes_val. cbn [arr_of bind]. rewrite map_length. change (8 mod 2 ^ 64) with 8.
  destruct (Z.eqb_spec 8 (Z.of_nat (List.length s))) as [En|]; [|discriminate]. rewrite ints_write by (apply bytes_range; exact H1). cbn [bind]. rewrite bytes_concat by exact H1.
  intros E. destruct (mapM (fun v => r0 "PngChunk" [] v) l) as [xs| | |] eqn:Em; try discriminate E. cbn in E. apply Ok_inj in E. injection E as <- _.
  assert (G : exists cs, Forall chunk_ok cs /\ l = map chunk_value cs /\ map fst xs = map chunk_bytes cs).
  { clear - H2 Em Er0. revert xs Em. induction l as [|x l IH]; intros xs Em; [apply Ok_inj in Em; subst xs; exists []; repeat split; constructor|]. cbn [mapM] in Em. bi Em y Ey. bi Em ys Eys. apply Ok_inj in Em. subst xs.
    destruct (IH (fun x Hx => H2 x (or_intror Hx)) _ Eys) as (cs & C1 & -> & C3). rewrite Er0 in Ey. destruct y as [yb yv]. destruct (chunk_inv _ _ _ _ (H2 x (or_introl eq_refl)) Ey) as (c & D1 & -> & ->).
    exists (c :: cs). cbn [map fst]. rewrite C3. repeat split. constructor; assumption. }
  destruct G as (cs & C1 & -> & C3). exists s, cs. rewrite C3, flat_map_concat_map. repeat split; try assumption. lia.
Qed.
Lemma png_rest k l v rest : sdecode prelude_world (prog png_prog) 20 k "Png" [] l = Ok (v, rest) -> rest = [].
Proof.
  destruct k as [|k]; [discriminate|]. cbn [sdecode]. remember (sdecode prelude_world (prog png_prog) 20 k) as r0 eqn:Er0. cbn -[read_prims sd_all]. intros H.
  destruct (read_prims _ _ _) as [[h l1]| | |]; try discriminate H. cbn [bind] in H. destruct (sd_all _ _ _) as [vs| | |]; try discriminate H. cbn [bind] in H. apply Ok_inj in H. injection H as _ <-. reflexivity.
Qed.
Lemma one_rep_none w : one_rep_world (fun _ => false) w.
Proof. intros f vs l v rest H. discriminate H. Qed.
Lemma png_read k l v rest : bytes_ok l -> Z.of_nat (List.length l) < 2 ^ 63 -> decode prelude_world (prog png_prog) 20 k "Png" [] l = Ok (v, rest) ->
  rest = [] /\ exists s cs, List.length s = 8%nat /\ bytes_ok s /\ Forall chunk_ok cs /\ v = png_value s cs /\ l = s ++ flat_map chunk_bytes cs.
Proof.
  intros B L H. pose proof (proj2 (prog_ok_compiles _ _ _ png_ok_prog)) as C.
  pose proof (C48_prelude_decoded_typed_partial png_prog 20 ["Png"] png_ok_prog png_data_prog k "Png" [] l v rest eq_refl L H) as T.
  destruct (decode_reencode prelude_world (prog png_prog) 20 (fun _ => true) (fun _ => false) prelude_world_suffixing C (one_rep_none _) eq_refl png_one_rep k "Png" [] l v rest eq_refl B) as (b & Eb & ->); [lia|exact H|].
  rewrite (proj1 (decode_refines prelude_world (prog png_prog) 20 prelude_world_suffixing (proj1 C) k _ _ _)) in H. apply png_rest in H as ->. split; [reflexivity|]. rewrite app_nil_r.
  rewrite (encode_refines prelude_world (prog png_prog) 20 (proj2 C)) in Eb. destruct (sencode _ _ _ _ _ _ _ _) as [[b' v']| | |] eqn:Es; try discriminate Eb. cbn [bind] in Eb. apply Ok_inj in Eb. subst b'. exact (png_inv _ _ _ _ T Es).
Qed.
Lemma png_rt k s cs : List.length s = 8%nat -> bytes_ok s -> Forall chunk_ok cs ->
  encode prelude_world (prog png_prog) 20 (S (S k)) "Png" [] (png_value s cs) = Ok (s ++ flat_map chunk_bytes cs) /\
  decode prelude_world (prog png_prog) 20 (S (S k)) "Png" [] (s ++ flat_map chunk_bytes cs) = Ok (png_value s cs, []).
Proof.
  intros H1 H2 H3. pose proof (C31_prelude_roundtrip_partial png_prog 20 ["Png"] png_ok_prog (S (S k)) "Png" [] _ _ [] eq_refl (png_writes k s cs H1 H2 H3) (fun _ => eq_refl)) as (E & D). rewrite app_nil_r in D. split; assumption.
Qed.
Definition png_ann : list (string * annot) := [("PngChunk", an 0 true []); ("Png", an 1 false [])].
Lemma png_returns b : Z.of_nat (List.length b) < 2 ^ 63 -> exists depth r, (forall k, (depth <= k)%nat -> decode prelude_world (prog png_prog) 20 k "Png" [] b = r) /\ r <> Panic /\ r <> Hang.
Proof. exact (fun O => C49_prelude_decoder_returns_partial png_prog 20 ["Png"] png_ann png_ok_prog png_data_prog ltac:(vm_compute; reflexivity) "Png" (an 1 false []) [] b eq_refl (Forall2_nil _) O). Qed.
Lemma png_compiled : compiled png_text = Some png_prog. Proof. vm_compute. reflexivity. Qed.

Lemma packet_ok_prog : prog_ok packet_prog 20 (prelude_marks []) = true. Proof. vm_compute. reflexivity. Qed.
Lemma packet_data_prog : data_prog packet_prog 20 = true. Proof. vm_compute. reflexivity. Qed.
Lemma packet_compiled : compiled packet_text = Some packet_prog. Proof. vm_compute. reflexivity. Qed.
Lemma packet_rt k id c1 l c2 rest : byte_ok id -> byte_ok c1 -> byte_ok c2 -> Forall item_ok l -> Z.of_nat (List.length (body_bytes l)) < 2 ^ 32 ->
  encode prelude_world (prog packet_prog) 20 (S (S (S k))) "Packet" [] (packet_value id c1 l c2) = Ok (packet_bytes id c1 l c2) /\
  decode prelude_world (prog packet_prog) 20 (S (S (S k))) "Packet" [] (packet_bytes id c1 l c2 ++ rest) = Ok (packet_value id c1 l c2, rest).
Proof.
  intros H1 H2 H3 H4 H5. exact (C31_prelude_roundtrip_partial packet_prog 20 [] packet_ok_prog _ "Packet" [] _ _ rest eq_refl (packet_writes k id c1 l c2 H1 H2 H3 H4 H5) (fun E => False_ind _ (Bool.diff_false_true E))).
Qed.
Definition packet_ann : list (string * annot) := [("TypeId", an 0 true []); ("ItemBody", an 1 true [ATy (RTNamed "TypeId")]); ("Item", an 2 true []); ("Packet", an 3 true [])].
Lemma packet_returns b : Z.of_nat (List.length b) < 2 ^ 63 -> exists depth r, (forall k, (depth <= k)%nat -> decode prelude_world (prog packet_prog) 20 k "Packet" [] b = r) /\ r <> Panic /\ r <> Hang.
Proof. exact (fun O => C49_prelude_decoder_returns_partial packet_prog 20 [] packet_ann packet_ok_prog packet_data_prog ltac:(vm_compute; reflexivity) "Packet" (an 3 true []) [] b eq_refl (Forall2_nil _) O). Qed.

(** *** Byte arrays: there is no variant for tag 7 *)
Lemma no_byte_arrays k l : decode prelude_world (prog nbt_prog) 20 (S k) "Payload" [tag_value 7] l = Err EDecode.
Proof. rewrite nbt_decode. vm_compute. reflexivity. Qed.
