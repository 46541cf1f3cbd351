(** Property C67: layout and comments do not matter. *)
From Verif Require Import Base Tokens TokSpec TokFacts P_Tok Parse Front Program P_Types.
From Coq Require Import Lia.
Open Scope string_scope. Open Scope Z_scope. Open Scope list_scope.

(** The tokens that are not comments. *)
Definition comment (t : token) : bool := match t with TLine _ | TBlock _ => true | _ => false end.
Definition code (ts : list token) : list token := filter (fun t => negb (comment t)) ts.
(** Two texts that differ in white space, comments and the spelling of string literals only: both are made of tokens, and of the same ones. *)
Definition same_code (s s' : list Z) : Prop := exists ts ts', tokenize s false = Ok ts /\ tokenize s' false = Ok ts' /\ code (map fst ts) = code (map fst ts').

Lemma comment_eq t : is_comment t = comment t.
Proof. destruct t; reflexivity. Qed.
Lemma map_code ts : map fst (filter (fun x : token * span => negb (is_comment (fst x))) ts) = code (map fst ts).
Proof. unfold code. induction ts as [|[t sp] ts IH]; [reflexivity|]. cbn [filter map fst]. rewrite comment_eq. destruct (negb (comment t)); cbn [map fst]; rewrite IH; reflexivity. Qed.
Lemma tokenize_strip s ts : tokenize s false = Ok ts -> tokenize s true = Ok (filter (fun x => negb (is_comment (fst x))) ts).
Proof. intros H. apply tokenize_all in H. unfold tokenize. rewrite H. reflexivity. Qed.
Lemma same_parse s s' : same_code s s' -> parse s = parse s'.
Proof.
  intros (ts & ts' & H & H' & E). unfold parse. rewrite (tokenize_strip _ _ H), (tokenize_strip _ _ H'), !map_code, E. reflexivity.
Qed.
(** The files an import can reach, before and after changing their layout. *)
Definition same_file (r r' : R (option (list Z))) : Prop :=
  match r, r' with
  | Ok (Some s), Ok (Some s') => s = s' \/ same_code s s'
  | _, _ => r = r'
  end.
Record same_files (rs rs' : resolver) : Prop := {
  same_prelude : r_prelude rs' = r_prelude rs;
  same_type : r_type rs' = r_type rs;
  same_xform : r_xform rs' = r_xform rs;
  same_func : r_func rs' = r_func rs;
  same_norm : r_norm rs' = r_norm rs;
  same_load : forall x, same_file (r_load rs x) (r_load rs' x) }.

Lemma load_layout en n rs rs' : same_files rs rs' -> forall k a c store log, load en n rs k a c store log = load en n rs' k a c store log.
Proof.
  destruct rs as [pre ty xf fu no lo], rs' as [pre' ty' xf' fu' no' lo']. intros [E1 E2 E3 E4 E5 L]. cbn in E1, E2, E3, E4, E5, L. subst.
  induction k as [|k IH]; intros a c store log; [reflexivity|]. cbn [load r_norm r_load]. revert c store log. induction a as [|d a IHa]; intros c store log; [reflexivity|].
  destruct d; try apply IHa. destruct (no from) as [x|e| |]; try reflexivity. cbn [bindl]. destruct (mget x c); [apply IHa|].
  cbv zeta. pose proof (L x) as Lx. unfold same_file in Lx. destruct (lo x) as [[s|]|e| |] eqn:El, (lo' x) as [[s'|]|e'| |] eqn:El'; try discriminate Lx; try (injection Lx as ->); try reflexivity.
  cbn [bindl]. assert (Px : parse s = parse s') by (destruct Lx as [<-|Lx]; [reflexivity|apply same_parse, Lx]). rewrite Px. destruct (parsed (parse s')) as [b|e| |]; try reflexivity. cbn [bindl]. rewrite IH. destruct (load _ _ _ k b c store (log ++ [x])) as [log1 r]. destruct r as [[c1 st1]|e| |]; try reflexivity. cbn [bindl].
  change (from_ast_imported en n {| r_prelude := pre; r_type := ty; r_xform := xf; r_func := fu; r_norm := no; r_load := lo' |} b c1 st1) with (from_ast_imported en n {| r_prelude := pre; r_type := ty; r_xform := xf; r_func := fu; r_norm := no; r_load := lo |} b c1 st1).
  destruct (from_ast_imported _ _ _ b c1 st1) as [q|e| |]; try reflexivity. cbn [bindl]. apply IHa.
Qed.

(** C67. Changing the layout and the comments of a specification, and of the files it imports, does not change what the compiler makes of it: it is accepted or refused alike, and the program is the same. *)
Theorem C67_same_program : forall en n rs rs' k s s', same_files rs rs' -> same_code s s' -> analyse en rs n k s = analyse en rs' n k s'.
Proof.
  intros en n rs rs' k s s' F C. unfold analyse. rewrite (same_parse _ _ C). destruct (parse s') as [a|e| |]; try reflexivity.
  unfold from_ast. rewrite (load_layout en n rs rs' F). destruct rs as [pre ty xf fu no lo], rs' as [pre' ty' xf' fu' no' lo']. destruct F as [E1 E2 E3 E4 E5 L]. cbn in E1, E2, E3, E4, E5. subst. reflexivity.
Qed.
Print Assumptions C67_same_program.

(** C67. Any layout will do: whatever is written around and between the tokens of an accepted text, as white space (at least one character after each token) and comments, the program is the same. *)
Theorem C67_any_layout : forall en n rs k s ts lead xs, tokenize s false = Ok ts ->
  ws lead -> Forall (fun e => spells (fst (fst e)) (snd (fst e)) /\ ws (snd e) /\ snd e <> []) xs -> code (map (fun e => fst (fst e)) xs) = code (map fst ts) ->
  analyse en rs n k (lead ++ spaced xs) = analyse en rs n k s.
Proof.
  intros en n rs k s ts lead xs T W F E. destruct (C15_retokenize lead xs W F) as (ts' & T' & M). apply C67_same_program.
  - split; try reflexivity. intros x. unfold same_file. destruct (r_load rs x) as [[t|]|e| |] eqn:El; try reflexivity. left. reflexivity.
  - exists ts', ts. rewrite M. auto.
Qed.
Print Assumptions C67_any_layout.

(** Every text made of tokens has such a layout: one space after each token, no comments. *)
Definition tidy (xs : list (token * list Z * list Z)) : Prop := Forall (fun e => spells (fst (fst e)) (snd (fst e)) /\ snd e = [32] /\ comment (fst (fst e)) = false) xs.
Theorem C67_tidy : forall s ts, tokenize s false = Ok ts -> exists xs, tidy xs /\ map (fun e => fst (fst e)) xs = code (map fst ts).
Proof.
  intros s ts T. apply C15_tokens_cover_text in T. revert T. generalize (map fst ts). clear ts. intros ts T. induction T as [|c s ts _ _ IH|t x s ts Sp _ (xs & F & M)|c _|c _ _|].
  - exists []. split; [constructor|reflexivity].
  - exact IH.
  - unfold code. cbn [filter]. destruct (comment t) eqn:Ec; cbn [negb]; [exists xs; split; [exact F|exact M]|]. exists ((t, x, [32]) :: xs). split; [constructor; [cbn; auto|exact F]|]. cbn [map fst snd]. f_equal. exact M.
  - exists []. split; [constructor|reflexivity].
  - exists []. split; [constructor|reflexivity].
  - exists []. split; [constructor|reflexivity].
Qed.
Print Assumptions C67_tidy.

Theorem C67_tidied : forall en n rs k s p, analyse en rs n k s = Ok p -> exists xs, tidy xs /\ analyse en rs n k (spaced xs) = Ok p.
Proof.
  intros en n rs k s p A. assert (T : exists ts, tokenize s false = Ok ts).
  { unfold analyse, parse in A. destruct (tokenize s true) as [ts| | |] eqn:E; try discriminate A. apply C15_strip_removes_comments_only in E as (all & E & _). eauto. }
  destruct T as (ts & T). destruct (C67_tidy s ts T) as (xs & F & M). exists xs. split; [exact F|]. rewrite <- A. apply (C67_any_layout en n rs k s ts [] xs T).
  - constructor.
  - apply Forall_forall. intros e He. unfold tidy in F. rewrite Forall_forall in F. destruct (F e He) as (S1 & -> & _). split; [exact S1|]. split; [repeat constructor|discriminate].
  - rewrite M. unfold code. clear. induction (map fst ts) as [|t l IH]; [reflexivity|]. cbn [filter]. destruct (negb (comment t)) eqn:E; [|exact IH]. cbn [filter]. rewrite E. f_equal. exact IH.
Qed.
Print Assumptions C67_tidied.

Definition dense_text : string := "type h=container{k:u8,n:u16le=1+2,s:u8[n]{k>=2}};".
Definition loose_text : string := "
// a header
type h /* of
  two lines */ = container {
  k : u8 , // the kind
  n:u16le = 1 +2,
  s: u8 [ n ] { k >= 2 }
} ;
".
Example C67_nonvacuous : same_code (bs dense_text) (bs loose_text) /\ bs dense_text <> bs loose_text /\
  (exists p, analyse string_env no_resolver 20 2 (bs dense_text) = Ok p /\ analyse string_env no_resolver 20 2 (bs loose_text) = Ok p /\ List.length (p_types p) = 1%nat) /\
  ~ same_code (bs "k >= 2") (bs "k > = 2").
Proof.
  split; [do 2 eexists; split; [vm_compute; reflexivity|]; split; [vm_compute; reflexivity|]; vm_compute; reflexivity|]. split; [vm_compute; discriminate|].
  split; [eexists; split; [vm_compute; reflexivity|]; split; vm_compute; reflexivity|].
  intros (ts & ts' & H & H' & E). vm_compute in H, H'. injection H as <-. injection H' as <-. vm_compute in E. discriminate E.
Qed.
Print Assumptions C67_nonvacuous.
