(** Property C54: compile_spec, the function build scripts call.  The host it runs on: Driver.v. *)
From Verif Require Import Base Tokens Ast Parse Front FrontFacts Program PreludeNames P_Types Driver.
From Coq Require Import Lia.
Open Scope string_scope. Open Scope Z_scope. Open Scope list_scope.

(** ** Paths *)
Lemma name_eqb_refl x : name_eqb x x = true.
Proof. induction x as [|c x IH]; [reflexivity|]. cbn. rewrite Z.eqb_refl. exact IH. Qed.
Lemma name_eqb_eq x y : name_eqb x y = true -> x = y.
Proof. revert y. induction x as [|c x IH]; intros [|d y]; cbn; try discriminate; [reflexivity|]. intros H. apply andb_prop in H as [A B]. apply Z.eqb_eq in A. rewrite A, (IH _ B). reflexivity. Qed.
Lemma file_eqb_refl f : file_eqb f f = true.
Proof. destruct f as [a l]. unfold file_eqb. cbn. rewrite Bool.eqb_reflx. cbn. induction l as [|x l IH]; [reflexivity|]. cbn. rewrite name_eqb_refl. exact IH. Qed.
Lemma file_eqb_eq f g : file_eqb f g = true -> f = g.
Proof.
  destruct f as [a l], g as [b m]. unfold file_eqb. cbn. intros H. apply andb_prop in H as [A B]. apply Bool.eqb_prop in A. subst b. f_equal. revert m B.
  induction l as [|x l IH]; intros [|y m]; cbn; try discriminate; [reflexivity|]. intros B. apply andb_prop in B as [A B]. rewrite (name_eqb_eq _ _ A), (IH _ B). reflexivity.
Qed.
Lemma pieces_app : forall a cur b, pieces cur (a ++ slash :: b) = pieces cur a ++ pieces [] b.
Proof. induction a as [|c a IH]; intros cur b; [reflexivity|]. cbn [app pieces]. destruct (c =? slash); cbn; rewrite IH; reflexivity. Qed.
Lemma pieces_plain : forall a cur, (forall c, In c a -> c <> slash) -> pieces cur a = [rev cur ++ a].
Proof.
  induction a as [|c a IH]; intros cur H; [cbn; rewrite app_nil_r; reflexivity|]. cbn [pieces]. destruct (Z.eqb_spec c slash) as [E|_]; [destruct (H c (or_introl eq_refl) E)|].
  rewrite IH by (intros d D; apply H; right; exact D). cbn. rewrite <- app_assoc. reflexivity.
Qed.
Lemma absolute_app a b : a <> [] -> absolute (a ++ b) = absolute a.
Proof. destruct a; [congruence|reflexivity]. Qed.
Lemma include_push dir name : dir <> [] -> absolute name = false -> path_of (include_path dir name) = path_of (push dir (name ++ bs ".rs")).
Proof.
  intros D N. assert (N' : absolute (name ++ bs ".rs") = false) by (destruct name; [reflexivity|exact N]). unfold push, include_path. rewrite N'.
  change (bs "/" ++ name ++ bs ".rs") with (slash :: (name ++ bs ".rs")). destruct (last_slash dir) eqn:L; [|reflexivity].
  unfold last_slash in L. destruct (rev dir) as [|c r] eqn:R; [apply (f_equal (@rev Z)) in R; rewrite rev_involutive in R; contradiction|].
  apply Z.eqb_eq in L. subst c. apply (f_equal (@rev Z)) in R. rewrite rev_involutive in R. cbn [rev] in R. subst dir. unfold path_of. f_equal.
  - rewrite !(absolute_app (rev r ++ [slash])) by exact D. reflexivity.
  - rewrite pieces_app. rewrite <- app_assoc. change ([slash] ++ name ++ bs ".rs") with (slash :: name ++ bs ".rs"). rewrite !pieces_app, !filter_app. cbn [filter pieces rev plain_piece name_eqb orb negb]. rewrite app_nil_r. reflexivity.
Qed.

(** ** The entry point *)
Section Spec.
  Variable h : host.
  Variable gen : prog -> option text.
  Variables n k : nat.
  Variable format : bool.
  Variables name spec : text.
  Let verdict := analyse prelude_env (with_prelude no_resolver) n k spec.
  Let run := compile_spec h gen n k format name spec.

  (** The file [text] ends up in: OUT_DIR joined with the name. *)
  Definition target (dir : text) : file := path_of (push dir (name ++ bs ".rs")).

  Lemma run_ok : fst run = Ok tt -> exists p code dir, verdict = Ok p /\ gen p = Some code /\ h_out_dir h = Some dir /\
    exists out, (if format then exists s, h_rustfmt h code = FmtOut out s else out = code) /\ snd run = update (h_files h) (target dir) out.
  Proof.
    unfold run, compile_spec, verdict. destruct (analyse _ _ _ _ _) as [p|e| |]; try discriminate. destruct (gen p) as [code|] eqn:G; [|discriminate].
    intros H. exists p, code. destruct format.
    - unfold rustfmt in *. destruct (h_rustfmt h code) as [| |out s] eqn:F; try discriminate. destruct (h_out_dir h) as [dir|]; [|discriminate]. exists dir. split; [reflexivity|]. split; [exact G|]. split; [reflexivity|].
      exists out. split; [exists s; reflexivity|]. unfold write_file, target in *. destruct (h_write h _); try discriminate. reflexivity.
    - destruct (h_out_dir h) as [dir|]; [|discriminate]. exists dir. split; [reflexivity|]. split; [exact G|]. split; [reflexivity|].
      exists code. split; [reflexivity|]. unfold write_file, target in *. destruct (h_write h _); try discriminate. reflexivity.
  Qed.
  Lemma run_err e : fst run = Err e <-> verdict = Err e.
  Proof.
    unfold run, compile_spec, verdict. destruct (analyse _ _ _ _ _) as [p|e'| |]; cbn; try (split; congruence). destruct (gen p) as [code|]; [|cbn; split; congruence].
    assert (W : forall c, fst (match h_out_dir h with Some dir => write_file h (push dir (name ++ bs ".rs")) c | None => (Panic, h_files h) end) <> Err e).
    { intros c. destruct (h_out_dir h); [|discriminate]. unfold write_file. destruct (h_write h _); discriminate. }
    split; [|discriminate]. intros H. exfalso. destruct format.
    - unfold rustfmt in H. destruct (h_rustfmt h code); try discriminate. exact (W _ H).
    - exact (W _ H).
  Qed.
  Lemma run_files : snd run = h_files h \/ exists dir x, h_out_dir h = Some dir /\ snd run = update (h_files h) (target dir) x.
  Proof.
    unfold run, compile_spec. destruct (analyse _ _ _ _ _) as [p|e'| |]; try (left; reflexivity). destruct (gen p) as [code|]; [|left; reflexivity].
    assert (W : forall c, let r := (match h_out_dir h with Some dir => write_file h (push dir (name ++ bs ".rs")) c | None => (Panic, h_files h) end) in
      snd r = h_files h \/ exists dir x, h_out_dir h = Some dir /\ snd r = update (h_files h) (target dir) x).
    { intros c. destruct (h_out_dir h) as [dir|]; [|left; reflexivity]. unfold write_file. destruct (h_write h _) as [|j|]; [left; reflexivity| |]; right; eexists dir, _; split; reflexivity. }
    destruct format; [|apply W]. unfold rustfmt. destruct (h_rustfmt h code); try (left; reflexivity). apply W.
  Qed.
End Spec.

(** A successful run: the specification was accepted, the code generated for it (as rustfmt prints it, if asked to) is in the target file, and every other file is as it was. *)
Theorem C54_success : forall h gen n k format name spec fs, compile_spec h gen n k format name spec = (Ok tt, fs) ->
  exists p code dir out, analyse prelude_env (with_prelude no_resolver) n k spec = Ok p /\ gen p = Some code /\ h_out_dir h = Some dir /\
    (if format then exists status, h_rustfmt h code = FmtOut out status else out = code) /\
    fs (target name dir) = Some out /\ (forall f, f <> target name dir -> fs f = h_files h f).
Proof.
  intros h gen n k format name spec fs H. destruct (run_ok h gen n k format name spec) as (p & code & dir & V & G & D & out & O & F); [rewrite H; reflexivity|].
  rewrite H in F. cbn [snd] in F. subst fs. exists p, code, dir, out. split; [exact V|]. split; [exact G|]. split; [exact D|]. split; [exact O|].
  unfold update. rewrite file_eqb_refl. split; [reflexivity|]. intros f N. destruct (file_eqb (target name dir) f) eqn:E; [|reflexivity]. apply file_eqb_eq in E. congruence.
Qed.
Print Assumptions C54_success.

(** Errors are returned exactly for the specifications the front end rejects, with its error: whatever the host does.  No file changes then. *)
Theorem C54_errors : forall h gen n k format name spec e,
  (fst (compile_spec h gen n k format name spec) = Err e <-> analyse prelude_env (with_prelude no_resolver) n k spec = Err e) /\
  (fst (compile_spec h gen n k format name spec) = Err e -> snd (compile_spec h gen n k format name spec) = h_files h).
Proof.
  intros h gen n k format name spec e. split; [apply run_err|]. intros H. apply run_err in H. unfold compile_spec. rewrite H. reflexivity.
Qed.
Print Assumptions C54_errors.

(** However a run ends, no file but the target is touched; and nothing is, if rustfmt cannot be run or OUT_DIR is not set. *)
Theorem C54_other_files : forall h gen n k format name spec f,
  (forall dir, h_out_dir h = Some dir -> f <> target name dir) -> snd (compile_spec h gen n k format name spec) f = h_files h f.
Proof.
  intros h gen n k format name spec f N. destruct (run_files h gen n k format name spec) as [->|(dir & x & D & ->)]; [reflexivity|].
  unfold update. destruct (file_eqb (target name dir) f) eqn:E; [|reflexivity]. apply file_eqb_eq in E. destruct (N dir D). congruence.
Qed.
Print Assumptions C54_other_files.
Theorem C54_no_host : forall h gen n k name spec, h_out_dir h = None \/ (forall x, h_rustfmt h x = FmtMissing \/ h_rustfmt h x = FmtPipe) ->
  snd (compile_spec h gen n k true name spec) = h_files h /\ fst (compile_spec h gen n k true name spec) <> Ok tt.
Proof.
  intros h gen n k name spec H. unfold compile_spec, rustfmt. destruct (analyse _ _ _ _ _) as [p|e| |]; try (split; [reflexivity|discriminate]).
  destruct (gen p) as [code|]; [|split; [reflexivity|discriminate]]. destruct H as [->|H].
  - destruct (h_rustfmt h code); split; try reflexivity; discriminate.
  - destruct (H code) as [->| ->]; split; try reflexivity; discriminate.
Qed.
Print Assumptions C54_no_host.

(** include_spec! finds what compile_spec wrote, if OUT_DIR is not empty and the name is a relative path. *)
Theorem C54_included_partial : forall h gen n k format name spec fs dir, compile_spec h gen n k format name spec = (Ok tt, fs) ->
  h_out_dir h = Some dir -> dir <> [] -> absolute name = false ->
  exists p code out, analyse prelude_env (with_prelude no_resolver) n k spec = Ok p /\ gen p = Some code /\
    (if format then exists status, h_rustfmt h code = FmtOut out status else out = code) /\ fs (path_of (include_path dir name)) = Some out.
Proof.
  intros h gen n k format name spec fs dir H D N A. destruct (C54_success _ _ _ _ _ _ _ _ H) as (p & code & dir' & out & V & G & D' & O & F & _).
  assert (dir' = dir) by congruence. subst dir'. exists p, code, out. split; [exact V|]. split; [exact G|]. split; [exact O|]. rewrite (include_push dir name N A). exact F.
Qed.
Print Assumptions C54_included_partial.

(** Specifications of different names do not overwrite each other (names that are single path components). *)
Theorem C54_names_apart : forall dir a b, (forall c, In c a -> c <> slash) -> (forall c, In c b -> c <> slash) -> target a dir = target b dir -> a = b.
Proof.
  intros dir a b A B. unfold target, push.
  assert (P : forall x, (forall c, In c x -> c <> slash) -> absolute (x ++ bs ".rs") = false /\ filter plain_piece (pieces [] (x ++ bs ".rs")) = [x ++ bs ".rs"]).
  { intros x X. assert (X' : forall c, In c (x ++ bs ".rs") -> c <> slash).
    { intros c C. apply in_app_or in C as [C|C]; [exact (X c C)|]. cbn in C. destruct C as [<-|[<-|[<-|[]]]]; discriminate. }
    split; [destruct x as [|c x]; [reflexivity|]; cbn; destruct (Z.eqb_spec c slash) as [E|]; [destruct (X c (or_introl eq_refl) E)|reflexivity]|].
    rewrite (pieces_plain _ [] X'). cbn [rev app filter]. destruct (plain_piece (x ++ bs ".rs")) eqn:Q; [reflexivity|]. exfalso. unfold plain_piece in Q. apply negb_false_iff in Q.
    apply orb_prop in Q as [Q|Q]; apply name_eqb_eq in Q; apply (f_equal (@List.length Z)) in Q; rewrite app_length in Q; cbn in Q; lia. }
  destruct (P a A) as [Aa Ap], (P b B) as [Ba Bp]. rewrite Aa, Ba.
  assert (Q : forall x y, path_of x = path_of y -> filter plain_piece (pieces [] x) = filter plain_piece (pieces [] y)) by (intros x y E; exact (f_equal snd E)).
  destruct (last_slash dir) eqn:L.
  - unfold last_slash in L. destruct (rev dir) as [|c r] eqn:R; apply (f_equal (@rev Z)) in R; rewrite rev_involutive in R.
    + cbn in R. subst dir. cbn [app]. intros E. apply Q in E. rewrite Ap, Bp in E. injection E as E. apply app_inv_tail in E. exact E.
    + apply Z.eqb_eq in L. subst c. cbn [rev] in R. subst dir. rewrite <- !app_assoc. cbn [app]. intros E. apply Q in E. rewrite !pieces_app, !filter_app, Ap, Bp in E. apply app_inv_head in E. injection E as E. apply app_inv_tail in E. exact E.
  - cbn [app]. intros E. apply Q in E. rewrite !pieces_app, !filter_app, Ap, Bp in E. apply app_inv_head in E. injection E as E. apply app_inv_tail in E. exact E.
Qed.
Print Assumptions C54_names_apart.

(** ** Where it fails *)
Definition demo_spec : text := bs "type a = u8;".
Definition demo_host (fmt : text -> fmt_run) (w : write_run) : host :=
  {| h_out_dir := Some (bs "/out/"); h_rustfmt := fmt; h_write := fun _ => w; h_files := fun _ => Some (bs "old") |}.
Definition demo_gen (_ : prog) : option text := Some (bs "struct a;").
Definition read {E A} (r : res E A * (file -> option text)) (path : string) : option (option text) :=
  match fst r with Ok _ => Some (snd r (path_of (bs path))) | _ => None end.

(** A rustfmt that fails without output (a rejected input, a broken tool chain) still makes a successful run, and an empty file. *)
Theorem C54_failed_rustfmt_refuted : exists h code status, h_rustfmt h code = FmtOut [] status /\ status <> 0 /\
  read (compile_spec h demo_gen 30 2 true (bs "x") demo_spec) "/out/x.rs" = Some (Some []).
Proof. exists (demo_host (fun _ => FmtOut [] 1) WDone), (bs "struct a;"), 1. split; [reflexivity|]. split; [discriminate|]. vm_compute. reflexivity. Qed.
Print Assumptions C54_failed_rustfmt_refuted.
(** A name that is an absolute path leaves OUT_DIR; include_spec! looks elsewhere. *)
Theorem C54_absolute_name_refuted : let r := compile_spec (demo_host (fun x => FmtOut x 0) WDone) demo_gen 30 2 true (bs "/etc/x") demo_spec in
  read r "/etc/x.rs" = Some (Some (bs "struct a;")) /\ snd r (path_of (include_path (bs "/out/") (bs "/etc/x"))) = Some (bs "old").
Proof. vm_compute. split; reflexivity. Qed.
Print Assumptions C54_absolute_name_refuted.
(** A device that fills up leaves the start of the code in the target, and a panic. *)
Theorem C54_short_write_refuted : let r := compile_spec (demo_host (fun x => FmtOut x 0) (WShort 3)) demo_gen 30 2 true (bs "x") demo_spec in
  fst r = Panic /\ snd r (path_of (bs "/out/x.rs")) = Some (bs "str").
Proof. vm_compute. split; reflexivity. Qed.
Print Assumptions C54_short_write_refuted.
Example C54_nonvacuous : read (compile_spec (demo_host (fun x => FmtOut (x ++ bs " ") 0) WDone) demo_gen 30 2 true (bs "x") demo_spec) "/out//./x.rs" = Some (Some (bs "struct a; ")) /\
  fst (compile_spec (demo_host (fun x => FmtOut x 0) WDone) demo_gen 30 2 true (bs "x") (bs "type a = b;")) <> Ok tt.
Proof. vm_compute. split; [reflexivity|discriminate]. Qed.
