(** A concrete world satisfying the laws the coder theorems assume: the prelude's
    foreign types (prelude/resolver.rs:24-60) on an in-memory reader, and one transform
    ("xor", a stand-in for a stream transform that reads to the end of its input). *)
From Verif Require Import ScalarFacts ConstIntFacts PreludeFacts UtfFacts DecRef EncRef RtWf RoundTrip.
Open Scope string_scope. Open Scope Z_scope. Open Scope list_scope.

Definition var_of (f : string) : option scalar :=
  lookup f [("v8", I8); ("v16", I16); ("v32", I32); ("v64", I64); ("v128", I128)].

Definition pw_fenc (f : string) (vs : list val) (v : val) : res ioerr (list Z) :=
  match var_of f with
  | Some s => match v with VInt s' z => if scalar_eqb s s' then varint_encode s z else Panic | _ => Panic end
  | None =>
      if String.eqb f "utf8" then
        match v, vs with
        | VStr s, [] => Ok (utf8_write None s)
        | VStr s, [VInt U64 n] => Ok (utf8_write (Some n) s)
        | _, _ => Panic
        end
      else Panic
  end.
Definition pw_fdec (f : string) (vs : list val) (l : list Z) : res ioerr (val * list Z) :=
  match var_of f with
  | Some s => let! (z, l) := varint_decode s l in Ok (VInt s z, l)
  | None =>
      if String.eqb f "utf8" then
        match vs with
        | [] => let! (s, l) := utf8_read None l in Ok (VStr s, l)
        | [VInt U64 n] => let! (s, l) := utf8_read (Some n) l in Ok (VStr s, l)
        | _ => Panic
        end
      else Panic
  end.
Definition xor_all (k : Z) (l : list Z) : list Z := map (Z.lxor k) l.
Definition pw_xenc (x : string) (vs : list val) (l : list Z) : res ioerr (list Z) :=
  if String.eqb x "xor" then match vs with [VInt U8 k] => Ok (xor_all k l) | _ => Panic end else Panic.
Definition pw_xdec (x : string) (vs : list val) (l : list Z) : res ioerr (list Z * list Z) :=
  if String.eqb x "xor" then match vs with [VInt U8 k] => Ok (xor_all k l, []) | _ => Panic end else Panic.

Definition prelude_world : world := {|
  w_chk := true; w_fty := prelude_fty; w_ufn := fun _ _ => Panic;
  w_fenc := pw_fenc; w_fdec := pw_fdec; w_xenc := pw_xenc; w_xdec := pw_xdec; w_fill := fun n => n |}.

Definition prelude_good : good := {|
  g_f := fun f vs v =>
    match var_of f, v with
    | Some s, VInt _ z => in_range s z && (z mod 2 ^ bits s <? 128 ^ Z.of_nat (varint_max s))
    | None, VStr s =>
        forallb is_usv s &&
        match vs with
        | [VInt U64 n] => (n =? Z.of_nat (List.length (utf8_encode s))) && (n <? 2 ^ 63)
        | _ => forallb (fun c => negb (c =? 0)) s
        end
    | _, _ => false
    end;
  g_x := fun _ _ _ => true |}.
Definition prelude_marks (tys : list string) : marks :=
  {| mk_ty := fun n => mem n tys; mk_f := fun _ => false; mk_x := fun _ => true |}.

Lemma is_usv_spec c : is_usv c = true -> usv c.
Proof. unfold is_usv, usv. intros H. rewrite ?orb_true_iff, ?andb_true_iff, ?Z.leb_le, ?Z.ltb_lt in H. lia. Qed.

Theorem prelude_world_laws tys : world_laws prelude_world prelude_good (prelude_marks tys).
Proof.
  split; [|split].
  - intros f vs v b rest. cbn. unfold pw_fenc, pw_fdec. destruct (var_of f) as [s|].
    + intros H G _. destruct v; try discriminate. destruct (scalar_eqb s s0) eqn:E; [|discriminate]. apply scalar_eqb_eq in E. subst s0.
      apply andb_true_iff in G as (G1 & G2). apply Z.ltb_lt in G2. apply (varint_roundtrip_iff s z rest G1) in G2 as (l & El & D).
      rewrite H in El. apply Ok_inj in El. subst l. rewrite D. reflexivity.
    + destruct (String.eqb f "utf8"); [|discriminate]. intros H G _. destruct v; try discriminate. apply andb_true_iff in G as (G1 & G2).
      assert (U : Forall usv s) by (apply Forall_forall; intros c Hc; rewrite forallb_forall in G1; apply is_usv_spec; auto).
      destruct vs as [|n [|]]; try discriminate.
      * apply Ok_inj in H. subst b. assert (N : ~ In 0 s). { intros Hi. rewrite forallb_forall in G2. apply G2 in Hi. discriminate. }
        apply (utf8_roundtrip_nul_iff s rest U) in N. rewrite N. reflexivity.
      * destruct n as [sc n| | | | | | | | | | | |]; try discriminate. destruct sc; try discriminate. apply Ok_inj in H. subst b. apply andb_true_iff in G2 as (G2 & G3). apply Z.eqb_eq in G2. apply Z.ltb_lt in G3.
        rewrite (utf8_roundtrip_len s n rest U G2 G3). reflexivity.
      * destruct n as [sc n| | | | | | | | | | | |]; try discriminate. destruct sc; discriminate.
  - intros x vs l b rest. cbn. unfold pw_xenc, pw_xdec. destruct (String.eqb x "xor"); [|discriminate]. destruct vs as [|v [|]]; try discriminate.
    2:{ destruct v as [sc n| | | | | | | | | | | |]; try discriminate. destruct sc; discriminate. }
    destruct v as [sc n| | | | | | | | | | | |]; try discriminate. destruct sc; try discriminate. intros H _ R. apply Ok_inj in H. subst b. rewrite R by reflexivity.
    rewrite app_nil_r. unfold xor_all. rewrite map_map. f_equal. f_equal. rewrite <- (map_id l) at 2. apply map_ext. intros z. rewrite <- Z.lxor_assoc, Z.lxor_nilpotent. apply Z.lxor_0_l.
  - intros n. cbn. lia.
Qed.

Lemma read_until0_suffix l : forall a r, read_until0 l = (a, r) -> exists j, (j <= List.length l)%nat /\ r = skipn j l.
Proof.
  induction l as [|b l IH]; cbn [read_until0]; intros a r H; [injection H as <- <-; exists 0%nat; auto|].
  destruct (b =? 0). - injection H as <- <-. exists 1%nat. cbn. split; [lia|reflexivity].
  - destruct (read_until0 l) as [a' r'] eqn:E. injection H as <- <-. destruct (IH _ _ eq_refl) as (j & Hj & ->). exists (S j). cbn [List.length skipn]. split; [lia|reflexivity].
Qed.
Lemma varint_read_suffix fuel s : forall i o, suffixing (varint_read fuel s i o).
Proof.
  induction fuel as [|fuel IH]; intros i o l a rest H; [discriminate H|]. cbn [varint_read] in H.
  destruct (read_exact 1 l) as [[buf r1]| | |] eqn:E; try discriminate H. cbn [bind] in H.
  destruct (read_exact_suffix 1 l buf r1 E) as (j & Hj & ->).
  destruct (_ <? _)%nat; [apply Ok_inj in H; injection H as <- <-; eauto|].
  destruct (_ =? _); [|apply Ok_inj in H; injection H as <- <-; eauto].
  apply IH in H as (k & Hk & ->). rewrite skipn_length in Hk. exists (j + k)%nat. rewrite skipn_skipn. split; [lia|f_equal; lia].
Qed.
Theorem prelude_world_suffixing : world_suffixing prelude_world.
Proof.
  split.
  - intros f vs l a rest. cbn. unfold pw_fdec. destruct (var_of f) as [s|].
    + intros H. destruct (varint_decode s l) as [[z l']| | |] eqn:E; try discriminate H. cbn [bind] in H. apply Ok_inj in H. injection H as <- <-. eapply varint_read_suffix; exact E.
    + destruct (String.eqb f "utf8"); [|discriminate]. destruct vs as [|n [|]]; try discriminate.
      * unfold utf8_read. destruct (read_until0 l) as [t r] eqn:E. intros H. destruct (from_utf8 _); [|discriminate H]. cbn in H. apply Ok_inj in H. injection H as <- <-. eapply read_until0_suffix; eauto.
      * destruct n as [sc n| | | | | | | | | | | |]; try discriminate. destruct sc; try discriminate. unfold utf8_read.
        destruct (2 ^ 63 <=? n); [discriminate|]. destruct (read_exact (Z.to_nat n) l) as [[t r]| | |] eqn:E; try discriminate. cbn [bind]. intros H. destruct (from_utf8 t); [|discriminate H]. cbn in H. apply Ok_inj in H. injection H as <- <-. eapply read_exact_suffix; eauto.
      * destruct n as [sc n| | | | | | | | | | | |]; try discriminate. destruct sc; discriminate.
  - intros x vs l a rest. cbn. unfold pw_xdec. destruct (String.eqb x "xor"); [|discriminate]. destruct vs as [|v [|]]; try discriminate.
    + destruct v as [sc n| | | | | | | | | | | |]; try discriminate. destruct sc; try discriminate. intros H. apply Ok_inj in H. injection H as <- <-.
      exists (List.length l). rewrite skipn_all. split; [lia|reflexivity].
    + destruct v as [sc n| | | | | | | | | | | |]; try discriminate. destruct sc; discriminate.
Qed.

(** Finite programs, and everything the theorems ask of one, as a decidable check. *)
Definition prog (l : list (string * decl)) : program := fun n => lookup n l.
Definition dec_wfb (d : decl) : bool :=
  negb (is_some (fa_cond (d_attr d))) && negb (fa_pad (d_attr d)) &&
  match d_ty d with
  | TCont _ true items => forallb (fun f => untagged (snd f) && (negb (is_cont (snd f)) || nodup (leaf_names (flatten_ty (snd f))))) items
  | TCont _ false items => forallb (fun f => untagged (snd f)) items && nodup (leaf_names (flatten_items items))
  | _ => true
  end.
Definition decl_ok (p : program) (rf : nat) (mk : marks) (n : string) (d : decl) : bool :=
  dec_wfb d && is_some (dec_code p rf d) && enc_wf d && is_some (enc_code p rf d)
  && match d_ty d with
     | TForeign _ => true
     | _ => rt_decl p mk d && (negb (greedy_field p mk (d_attr d, d_ty d)) || mk_ty mk n)
     end.
Definition prog_ok (l : list (string * decl)) (rf : nat) (mk : marks) : bool :=
  forallb (fun nd => decl_ok (prog l) rf mk (fst nd) (snd nd)) l.

Lemma dec_wfb_spec d : dec_wfb d = true -> dec_wf d.
Proof.
  unfold dec_wfb, dec_wf. rewrite !andb_true_iff, !negb_true_iff. intros ((H1 & H2) & H3). split; [destruct (fa_cond _); [discriminate|reflexivity]|]. split; [assumption|].
  destruct (d_ty d) as [| | | | | | | | |len tg items]; try exact I. destruct tg.
  - apply Forall_forall. intros f Hf. rewrite forallb_forall in H3. apply H3, andb_true_iff in Hf as (A & B). split; [assumption|]. intros C. rewrite C in B. apply nodup_NoDup. exact B.
  - apply andb_true_iff in H3 as (A & B). split; [|apply nodup_NoDup; assumption]. apply Forall_forall. intros f Hf. rewrite forallb_forall in A. auto.
Qed.
Lemma lookup_in_prog l n d : prog l n = Some d -> In (n, d) l.
Proof. apply lookup_some_in. Qed.
Lemma prog_ok_spec l rf mk : prog_ok l rf mk = true ->
  rt_program (prog l) mk /\ dec_ok (prog l) rf /\ (forall n d, prog l n = Some d -> enc_wf d = true /\ enc_code (prog l) rf d <> None).
Proof.
  intros H. unfold prog_ok in H. rewrite forallb_forall in H.
  assert (K : forall n d, prog l n = Some d -> decl_ok (prog l) rf mk n d = true) by (intros n d E; apply (H (n, d)), lookup_some_in; exact E).
  split; [|split].
  - intros n d E F. specialize (K _ _ E). unfold decl_ok in K. rewrite !andb_true_iff in K. destruct K as (_ & K). unfold foreign_of in F. rewrite E in F.
    destruct (d_ty d) eqn:T; try (apply andb_true_iff in K as (K1 & K2); split; [assumption|]; intros G; rewrite G in K2; exact K2).
    destruct d; cbn in T. subst. cbn in F. discriminate F.
  - intros n d E. specialize (K _ _ E). unfold decl_ok in K. rewrite !andb_true_iff in K. destruct K as ((((K1 & K2) & _) & _) & _). split; [apply dec_wfb_spec; assumption|]. destruct (dec_code _ _ _); [discriminate|discriminate K2].
  - intros n d E. specialize (K _ _ E). unfold decl_ok in K. rewrite !andb_true_iff in K. destruct K as ((((_ & _) & K1) & K2) & _). split; [assumption|]. destruct (enc_code _ _ _); [discriminate|discriminate K2].
Qed.
