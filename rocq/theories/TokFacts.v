(** Proofs about the tokenizer model. *)
From Verif Require Import Base Tokens TokSpec.
Open Scope string_scope. Open Scope Z_scope. Open Scope list_scope.

Lemma eat_spec w : forall s r, eat s w = Some r <-> s = w ++ r.
Proof.
  induction w as [|a w IH]; intros s r; cbn [eat app].
  - split; [destruct s; intros H; injection H; congruence|intros ->; destruct r; reflexivity].
  - destruct s as [|c s]; [split; discriminate|]. destruct (Z.eqb_spec c a) as [->|N].
    + rewrite IH. split; [intros ->; reflexivity|intros H; injection H; auto].
    + split; [discriminate|]. intros H. injection H; congruence.
Qed.
Lemma eqbl_eq a : forall b, eqbl a b = true <-> a = b.
Proof.
  induction a as [|x a IH]; intros [|y b]; cbn [eqbl]; try (split; congruence). rewrite andb_true_iff, Z.eqb_eq, IH. split; [intros (-> & ->); reflexivity|intros H; injection H; auto].
Qed.
Lemma take_while_ok f l : forall a b, take_while f l = (a, b) -> l = a ++ b /\ Forall (fun c => f c = true) a /\ (forall c r, b = c :: r -> f c = false).
Proof.
  induction l as [|c l IH]; intros a b H; cbn [take_while] in H; [injection H as <- <-; repeat split; [constructor|discriminate]|].
  destruct (f c) eqn:E.
  - destruct (take_while f l) as [a' b'] eqn:Et. injection H as <- <-. destruct (IH _ _ eq_refl) as (-> & F & N). repeat split; [constructor; assumption|exact N].
  - injection H as <- <-. repeat split; [constructor|]. intros c' r' H. injection H as <- <-. exact E.
Qed.
Lemma take_while_app f a b : Forall (fun c => f c = true) a -> (forall c r, b = c :: r -> f c = false) -> take_while f (a ++ b) = (a, b).
Proof.
  induction 1 as [|c a E _ IH]; intros N; cbn [app].
  - destruct b as [|c b]; [reflexivity|]. cbn [take_while]. rewrite (N c b eq_refl). reflexivity.
  - cbn [take_while]. rewrite E, (IH N). reflexivity.
Qed.
(** Any prefix in the class is inside the longest one. *)
Lemma take_while_max f l a b p q : take_while f l = (a, b) -> l = p ++ q -> Forall (fun c => f c = true) p -> (List.length p <= List.length a)%nat.
Proof.
  revert a b p. induction l as [|c l IH]; intros a b p H E F; cbn [take_while] in H.
  - symmetry in E. apply app_eq_nil in E as (-> & _). cbn. lia.
  - destruct p as [|c' p]; [cbn; lia|]. cbn [app] in E. injection E as <- E. inversion F as [|? ? F1 F2]; subst. rewrite F1 in H. destruct (take_while f (p ++ q)) as [a' b'] eqn:Et. injection H as <- <-. cbn [List.length]. pose proof (IH _ _ p eq_refl eq_refl F2). lia.
Qed.

(** *** Strings *)
Lemma scan_str_inv : forall n l out rest, (List.length l <= n)%nat -> scan_str l = SDone out rest -> exists body, l = body ++ 34 :: rest /\ str_body body out.
Proof.
  induction n as [|n IH]; intros l out rest Hn H; [destruct l; [discriminate H|cbn in Hn; lia]|].
  assert (P : forall b s out rest, scan_push b s = SDone out rest -> exists o, s = SDone o rest /\ out = b :: o).
  { intros b [o r'| |] o' r H'; try discriminate H'. cbn in H'. injection H' as <- <-. eauto. }
  destruct l as [|x r]; [discriminate H|]. cbn [List.length] in Hn. cbn [scan_str] in H. destruct (Z.eqb_spec x 92) as [->|N92].
  - destruct r as [|c r1]; [discriminate H|]. cbn [List.length] in Hn. destruct (is_hex c) eqn:Hc.
    + destruct r1 as [|d r2]; [discriminate H|]. cbn [List.length] in Hn. destruct (is_hex d) eqn:Hd.
      * destruct r2 as [|e r3]; [discriminate H|]. destruct (is_hex e) eqn:He; [|discriminate H]. apply P in H as (o & H & ->). apply IH in H as (body & E & B); [|cbn [List.length] in *; lia].
        destruct body as [|e' body]; cbn [app] in E; [injection E as -> _; discriminate He|]. injection E as <- E. exists (92 :: c :: d :: e :: body). split; [cbn [app]; congruence|]. apply sb_hex3; assumption.
      * apply P in H as (o & H & ->). apply IH in H as (body & E & B); [|cbn [List.length] in *; lia]. exists (92 :: c :: body). split; [cbn [app]; congruence|]. apply sb_hex1; [exact Hc| |exact B]. intros d' r' ->. cbn [app] in E. injection E as <- _. exact Hd.
    + apply P in H as (o & H & ->). apply IH in H as (body & E & B); [|cbn [List.length] in *; lia]. exists (92 :: c :: body). split; [cbn [app]; congruence|]. apply sb_esc; assumption.
  - destruct (Z.eqb_spec x 34) as [->|N34].
    + injection H as <- <-. exists []. split; [reflexivity|constructor].
    + apply P in H as (o & H & ->). apply IH in H as (body & -> & B); [|lia]. exists (x :: body). split; [reflexivity|]. apply sb_raw; assumption.
Qed.
Lemma hex_not c : is_hex c = true -> c <> 34 /\ c <> 92.
Proof. intros H. split; intros ->; discriminate H. Qed.
Lemma scan_str_app body out rest : str_body body out -> scan_str (body ++ 34 :: rest) = SDone out rest.
Proof.
  induction 1 as [|c body out N1 N2 _ IH|c body out Hc _ IH|h body out Hh Hb _ IH|h d e body out Hh Hd He _ IH]; cbn [app].
  - reflexivity.
  - cbn [scan_str]. apply Z.eqb_neq in N1, N2. rewrite N1, N2, IH. reflexivity.
  - cbn [scan_str Z.eqb Pos.eqb]. rewrite Hc, IH. reflexivity.
  - cbn [scan_str Z.eqb Pos.eqb]. rewrite Hh. destruct (body ++ 34 :: rest) as [|d r] eqn:E; [destruct body; discriminate E|].
    assert (Hd : is_hex d = false). { destruct body as [|d' b']; cbn [app] in E; injection E as <- _; [reflexivity|eapply Hb; reflexivity]. }
    rewrite Hd, IH. reflexivity.
  - cbn [scan_str Z.eqb Pos.eqb]. rewrite Hh, Hd, He. cbn [app] in IH. cbn [scan_str] in IH. rewrite IH. reflexivity.
Qed.

(** *** Comments *)
Lemma scan_block_inv l : forall a b, scan_block l = (a, b) -> no_close a /\ (l = a ++ 42 :: 47 :: b \/ (b = [] /\ l = a)).
Proof.
  assert (NC : forall x a, no_close a -> (forall r, x = 42 -> a <> 47 :: r) -> no_close (x :: a)).
  { intros x a Ha Hx p q E. destruct p as [|y p]; cbn [app] in E; [injection E as -> E; exact (Hx q eq_refl E)|]. injection E as _ E. exact (Ha _ _ E). }
  assert (N0 : no_close []) by (intros p q E; destruct p; discriminate E).
  induction l as [|x l IH]; intros a b H; [injection H as <- <-; split; [exact N0|right; auto]|]. destruct l as [|y l].
  - cbn in H. injection H as <- <-. split; [|right; auto]. apply NC; [exact N0|discriminate].
  - change (scan_block (x :: y :: l)) with (if (x =? 42) && (y =? 47) then ([], l) else let (p, q) := scan_block (y :: l) in (x :: p, q)) in H.
    destruct ((x =? 42) && (y =? 47)) eqn:E.
    + apply andb_true_iff in E as (E1 & E2). apply Z.eqb_eq in E1, E2. subst. injection H as <- <-. split; [exact N0|left; reflexivity].
    + destruct (scan_block (y :: l)) as [p q] eqn:Es. injection H as <- <-. destruct (IH _ _ eq_refl) as (Np & D). split.
      * apply NC; [exact Np|]. intros r -> ->. destruct D as [D|(-> & D)]; cbn [app] in D; injection D as ->; discriminate E.
      * destruct D as [D|(-> & D)]; [left; cbn [app]; congruence|right; split; [reflexivity|congruence]].
Qed.
Lemma no_close_tl x a : no_close (x :: a) -> no_close a.
Proof. intros H p q E. apply (H (x :: p) q). cbn. congruence. Qed.
Lemma scan_block_app c s : no_close c -> scan_block (c ++ 42 :: 47 :: s) = (c, s).
Proof.
  induction c as [|x c IH]; intros N; [reflexivity|]. specialize (IH (no_close_tl _ _ N)). cbn [app]. destruct (c ++ 42 :: 47 :: s) as [|y r] eqn:E; [destruct c; discriminate E|].
  change (scan_block (x :: y :: r)) with (if (x =? 42) && (y =? 47) then ([], r) else let (p, q) := scan_block (y :: r) in (x :: p, q)). rewrite IH.
  destruct ((x =? 42) && (y =? 47)) eqn:E2; [|reflexivity]. exfalso. apply andb_true_iff in E2 as (E1 & E2). apply Z.eqb_eq in E1, E2. subst. destruct c as [|z c]; cbn [app] in E; injection E as E _; [discriminate E|]. subst z. apply (N [] c). reflexivity.
Qed.
Lemma scan_block_all c : no_close c -> scan_block c = (c, []).
Proof.
  induction c as [|x c IH]; intros N; [reflexivity|]. specialize (IH (no_close_tl _ _ N)). destruct c as [|y r]; [reflexivity|].
  change (scan_block (x :: y :: r)) with (if (x =? 42) && (y =? 47) then ([], r) else let (p, q) := scan_block (y :: r) in (x :: p, q)). rewrite IH.
  destruct ((x =? 42) && (y =? 47)) eqn:E2; [|reflexivity]. exfalso. apply andb_true_iff in E2 as (E1 & E2). apply Z.eqb_eq in E1, E2. subst. apply (N [] r). reflexivity.
Qed.
Lemma scan_line_inv l a b : scan_line l = (a, b) -> ~ In 10 a /\ (l = a ++ 10 :: b \/ (b = [] /\ l = a)).
Proof.
  unfold scan_line. destruct (take_while _ l) as [p q] eqn:E. intros H. injection H as <- <-. destruct (take_while_ok _ _ _ _ E) as (-> & F & N). split.
  - intros Hi. rewrite Forall_forall in F. specialize (F _ Hi). discriminate F.
  - destruct q as [|c r]; [right; rewrite app_nil_r; auto|]. left. specialize (N c r eq_refl). apply negb_false_iff, Z.eqb_eq in N. subst. reflexivity.
Qed.
Lemma scan_line_app c s : ~ In 10 c -> scan_line (c ++ 10 :: s) = (c, s).
Proof.
  intros H. unfold scan_line. rewrite take_while_app; [reflexivity| |].
  - apply Forall_forall. intros x Hx. apply negb_true_iff, Z.eqb_neq. intros ->. exact (H Hx).
  - intros c' r E. injection E as <- _. reflexivity.
Qed.

(** *** Words *)
Lemma keyword_inv w k : keyword keywords w = Some k -> w = kw_text k.
Proof.
  assert (H : forall tab, forallb (fun x => eqbl (fst x) (kw_text (snd x))) tab = true -> keyword tab w = Some k -> w = kw_text k).
  { induction tab as [|[x y] tab IH]; intros F E; [discriminate E|]. cbn [forallb fst snd] in F. apply andb_true_iff in F as (F1 & F2). cbn [keyword] in E. destruct (eqbl w x) eqn:Ex; [|apply IH; assumption]. apply eqbl_eq in Ex, F1. injection E as <-. congruence. }
  apply H. vm_compute. reflexivity.
Qed.
Lemma keyword_text k : keyword keywords (kw_text k) = Some k.
Proof. destruct k; vm_compute; reflexivity. Qed.
Lemma kw_text_word k : ident_word (kw_text k).
Proof. destruct k; (eexists; eexists; split; [vm_compute; reflexivity|]; split; [vm_compute; reflexivity|]; repeat constructor). Qed.
Lemma word_spells w : ident_word w -> spells (word w) w.
Proof.
  intros H. unfold word. destruct (keyword keywords w) as [k|] eqn:E; [apply keyword_inv in E; subst; constructor|]. constructor; [exact H|]. intros k <-. rewrite keyword_text in E. discriminate E.
Qed.
Lemma spells_word t w : ident_word w -> spells t w -> match t with TIdent _ | TKw _ => word w = t | _ => True end.
Proof.
  intros _ H. destruct t; auto; inversion H; subst; unfold word; [|rewrite keyword_text; reflexivity].
  destruct (keyword keywords w) as [k|] eqn:E; [|reflexivity]. exfalso. apply keyword_inv in E. congruence.
Qed.
Lemma eat_identifier_inv l w r : eat_identifier l = Some (w, r) -> l = w ++ r /\ ident_word w /\ (forall c r', r = c :: r' -> id_cont c = false).
Proof.
  destruct l as [|c l]; [discriminate|]. cbn [eat_identifier]. destruct (id_start c) eqn:Hc; [|discriminate]. destruct (take_while id_cont l) as [a b] eqn:E. intros H. injection H as <- <-. destruct (take_while_ok _ _ _ _ E) as (-> & F & N).
  split; [reflexivity|]. split; [exists c, a; auto|exact N].
Qed.
Lemma eat_identifier_app w s : ident_word w -> (forall c r, s = c :: r -> id_cont c = false) -> eat_identifier (w ++ s) = Some (w, s).
Proof. intros (c & r & -> & Hc & F) N. cbn [app eat_identifier]. rewrite Hc, (take_while_app _ _ _ F N). reflexivity. Qed.

(** *** Operators *)
Lemma punct_at_inv tab s p rest : punct_at tab s = Some (p, rest) -> exists w, In (w, p) tab /\ s = w ++ rest.
Proof.
  induction tab as [|[w q] tab IH]; [discriminate|]. cbn [punct_at]. destruct (eat s w) as [r|] eqn:E; intros H.
  - injection H as <- <-. apply eat_spec in E. exists w. split; [left; reflexivity|exact E].
  - destruct (IH H) as (w' & Hi & E'). exists w'. split; [right; exact Hi|exact E'].
Qed.
Lemma puncts_op w o : In (w, AOp o) puncts -> w = op_text o.
Proof.
  assert (F : forallb (fun x => match snd x with AOp o => eqbl (fst x) (op_text o) | _ => true end) puncts = true) by (vm_compute; reflexivity).
  rewrite forallb_forall in F. intros H. apply F in H. cbn in H. apply eqbl_eq in H. exact H.
Qed.
Lemma puncts_line w : In (w, ALine) puncts -> w = bs "//".
Proof.
  assert (F : forallb (fun x => match snd x with ALine => eqbl (fst x) (bs "//") | _ => true end) puncts = true) by (vm_compute; reflexivity).
  rewrite forallb_forall in F. intros H. apply F in H. cbn [snd fst] in H. apply eqbl_eq in H. exact H.
Qed.
Lemma puncts_block w : In (w, ABlock) puncts -> w = bs "/*".
Proof.
  assert (F : forallb (fun x => match snd x with ABlock => eqbl (fst x) (bs "/*") | _ => true end) puncts = true) by (vm_compute; reflexivity).
  rewrite forallb_forall in F. intros H. apply F in H. cbn [snd fst] in H. apply eqbl_eq in H. exact H.
Qed.
(** First bytes of operators start nothing else. *)
Definition is_punct (c : Z) : bool := existsb (fun x => match fst x with h :: _ => c =? h | [] => false end) puncts.
Lemma punct_start w p c r : In (w, p) puncts -> w = c :: r -> is_punct c = true.
Proof. intros H ->. unfold is_punct. apply existsb_exists. exists (c :: r, p). split; [exact H|]. cbn. apply Z.eqb_refl. Qed.
Lemma is_punct_class c : is_punct c = true -> is_ws c = false /\ c <> 34 /\ is_digit c = false /\ id_start c = false.
Proof.
  unfold is_punct. intros H. apply existsb_exists in H as ([w p] & Hi & E). cbn [fst] in E. destruct w as [|h w]; [discriminate E|]. apply Z.eqb_eq in E. subst c.
  assert (F : forallb (fun x => match fst x with h :: _ => negb (is_ws h) && negb (h =? 34) && negb (is_digit h) && negb (id_start h) | [] => false end) puncts = true) by (vm_compute; reflexivity).
  rewrite forallb_forall in F. apply F in Hi. cbn [fst] in Hi. rewrite !andb_true_iff, !negb_true_iff, Z.eqb_neq in Hi. tauto.
Qed.
Lemma puncts_nonempty w p : In (w, p) puncts -> w <> [].
Proof.
  assert (F : forallb (fun x => match fst x with [] => false | _ => true end) puncts = true) by (vm_compute; reflexivity).
  rewrite forallb_forall in F. intros H ->. apply F in H. discriminate H.
Qed.
Lemma punct_at_none c r : is_punct c = false -> punct_at puncts (c :: r) = None.
Proof.
  intros H. destruct (punct_at puncts (c :: r)) as [[p rest]|] eqn:E; [|reflexivity]. exfalso. apply punct_at_inv in E as (w & Hi & E). destruct w as [|h w]; [exact (puncts_nonempty _ _ Hi eq_refl)|].
  cbn [app] in E. injection E as <- _. rewrite (punct_start _ _ _ _ Hi eq_refl) in H. discriminate H.
Qed.
(** Every entry of the table that is a prefix of the text is at most as long as the one
    found. *)
Fixpoint prefix (a b : list Z) : bool := match a, b with [], _ => true | x :: a, y :: b => (x =? y) && prefix a b | _, _ => false end.
Lemma prefix_spec a : forall b, prefix a b = true <-> exists c, b = a ++ c.
Proof.
  induction a as [|x a IH]; intros b; cbn [prefix app]; [split; [exists b; reflexivity|reflexivity]|]. destruct b as [|y b]; [split; [discriminate|intros (c & E); discriminate E]|].
  rewrite andb_true_iff, Z.eqb_eq, IH. split; [intros (-> & c & ->); exists c; reflexivity|intros (c & E); injection E as <- ->; split; [reflexivity|eauto]].
Qed.
Fixpoint ordered (tab : list (list Z * punct)) : bool :=
  match tab with
  | [] => true
  | (w, _) :: tab => forallb (fun x => negb (prefix w (fst x)) || (List.length (fst x) <=? List.length w)%nat) tab && ordered tab
  end.
Lemma punct_at_longest tab s p rest : ordered tab = true -> punct_at tab s = Some (p, rest) -> forall w' p' rest', In (w', p') tab -> s = w' ++ rest' -> (List.length rest <= List.length rest')%nat.
Proof.
  induction tab as [|[w q] tab IH]; intros O H w' p' rest' Hi E; [destruct Hi|]. cbn [ordered] in O. apply andb_true_iff in O as (O1 & O2). cbn [punct_at] in H. destruct (eat s w) as [r|] eqn:Ee.
  - injection H as <- <-. apply eat_spec in Ee. assert (L : (List.length w' <= List.length w)%nat).
    { destruct Hi as [Hi|Hi]; [injection Hi as -> _; lia|]. rewrite forallb_forall in O1. apply O1 in Hi. cbn [fst] in Hi. apply orb_true_iff in Hi as [Hp|Hp]; [|apply Nat.leb_le in Hp; exact Hp].
      destruct (Nat.le_gt_cases (List.length w') (List.length w)) as [|L]; [assumption|exfalso]. apply negb_true_iff in Hp. assert (prefix w w' = true); [|congruence]. apply prefix_spec.
      exists (firstn (List.length w' - List.length w) r). rewrite Ee in E. apply (f_equal (firstn (List.length w'))) in E. rewrite !firstn_app in E. rewrite firstn_all, Nat.sub_diag, firstn_O, app_nil_r in E. rewrite (firstn_all2 w) in E by lia. symmetry. exact E. }
    rewrite E in Ee. apply (f_equal (@List.length Z)) in Ee. rewrite !app_length in Ee. lia.
  - destruct Hi as [Hi|Hi]; [injection Hi as -> ->; assert (E' : eat s w' = Some rest') by (apply eat_spec; exact E); congruence|]. eapply IH; eassumption.
Qed.
Lemma puncts_ordered : ordered puncts = true. Proof. vm_compute. reflexivity. Qed.
Lemma op_in o : In (op_text o, AOp o) puncts.
Proof. destruct o; vm_compute; tauto. Qed.

(** *** One step *)
Lemma id_start_class c : id_start c = true -> is_ws c = false /\ (c =? 34) = false /\ is_digit c = false /\ is_punct c = false.
Proof.
  intros H. assert (P : is_punct c = false) by (destruct (is_punct c) eqn:E; [apply is_punct_class in E; destruct E as (_ & _ & _ & E); congruence|reflexivity]).
  repeat split; try exact P; unfold id_start, is_alpha, is_ws, is_digit in *; destruct (Z.eqb_spec c 95); subst; try reflexivity; rewrite ?orb_false_r in H; lia.
Qed.
Lemma digit_class c : is_digit c = true -> is_ws c = false /\ (c =? 34) = false.
Proof. unfold is_digit, is_ws. intros H. lia. Qed.
Lemma hex_x : is_hex 120 = false. Proof. reflexivity. Qed.
Lemma op_head o : exists c r, op_text o = c :: r /\ is_punct c = true.
Proof. pose proof (op_in o) as H. destruct (op_text o) as [|c r] eqn:E; [destruct (puncts_nonempty _ _ H eq_refl)|]. exists c, r. split; [reflexivity|]. eapply punct_start; [exact H|reflexivity]. Qed.
Lemma gobble_punct c r : is_punct c = true -> gobble (c :: r) =
  match punct_at puncts (c :: r) with
  | Some (AOp o, rest) => GTok (TOp o) rest
  | Some (ALine, rest) => let (a, b) := scan_line rest in GTok (TLine a) b
  | Some (ABlock, rest) => match rest with [] => GNone [] | _ => let (a, b) := scan_block rest in GTok (TBlock a) b end
  | None => GNone (c :: r)
  end.
Proof.
  intros H. destruct (is_punct_class _ H) as (H1 & H2 & H3 & H4). apply Z.eqb_neq in H2. unfold gobble. rewrite H1, H2, H3. destruct (punct_at puncts (c :: r)) as [[[o| |] rest]|]; try reflexivity. cbn [eat_identifier]. rewrite H4. reflexivity.
Qed.
Lemma gobble_word c r : id_start c = true -> gobble (c :: r) = let (a, b) := take_while id_cont r in GTok (word (c :: a)) b.
Proof.
  intros H. destruct (id_start_class _ H) as (H1 & H2 & H3 & H4). unfold gobble. rewrite H1, H2, H3, (punct_at_none _ _ H4). cbn [eat_identifier]. rewrite H. destruct (take_while id_cont r). reflexivity.
Qed.
Lemma gobble_int c r : is_digit c = true -> gobble (c :: r) = let (a, b) := scan_int c r in GTok (TInt a) b.
Proof. intros H. destruct (digit_class _ H) as (H1 & H2). unfold gobble. rewrite H1, H2, H. reflexivity. Qed.
Lemma gobble_str r : gobble (34 :: r) = match scan_str r with SDone out rest => GTok (TStr out) rest | SOpen => GNone (34 :: r) | SPanic => GPanic end.
Proof. reflexivity. Qed.
Lemma gobble_line r : gobble (47 :: 47 :: r) = let (a, b) := scan_line r in GTok (TLine a) b.
Proof. reflexivity. Qed.
Lemma gobble_block r : gobble (47 :: 42 :: r) = match r with [] => GNone [] | _ => let (a, b) := scan_block r in GTok (TBlock a) b end.
Proof. reflexivity. Qed.

Lemma scan_int_inv c r a b : is_digit c = true -> scan_int c r = (a, b) -> c :: r = a ++ b /\ spells (TInt a) a.
Proof.
  intros Hc H. destruct r as [|x r]; cbn [scan_int] in H; [injection H as <- <-; split; [reflexivity|apply sp_dec; [discriminate|repeat constructor; exact Hc]]|].
  destruct ((c =? 48) && (x =? 120)) eqn:E.
  - apply andb_true_iff in E as (E1 & E2). apply Z.eqb_eq in E1, E2. subst. destruct (take_while is_hex r) as [p q] eqn:Et. injection H as <- <-. destruct (take_while_ok _ _ _ _ Et) as (-> & F & _). split; [reflexivity|]. exact (sp_hex p F).
  - destruct (take_while is_digit (x :: r)) as [p q] eqn:Et. injection H as <- <-. destruct (take_while_ok _ _ _ _ Et) as (-> & F & _). split; [reflexivity|]. apply sp_dec; [discriminate|constructor; assumption].
Qed.
Lemma ident_split t x : spells t x -> match t with TIdent _ | TKw _ => ident_word x | _ => True end.
Proof. intros H. destruct t; auto; inversion H; subst; [assumption|apply kw_text_word]. Qed.

Lemma gobble_longest t' x' s' t rest : spells t' x' -> gobble (x' ++ s') = GTok t rest -> (List.length rest <= List.length s')%nat.
Proof.
  intros Sp G. inversion Sp as [o|k|w W N|w Nn D|h Hh|body out B|c Nl|c Nc]; subst.
  - destruct (op_head o) as (c & r & E & P). pose proof (op_in o) as Hi. rewrite E in *. cbn [app] in G. rewrite (gobble_punct _ _ P) in G. destruct (punct_at puncts (c :: r ++ s')) as [[p r0]|] eqn:Ep; [|discriminate G].
    assert (L : (List.length r0 <= List.length s')%nat) by (eapply punct_at_longest; [exact puncts_ordered|exact Ep|exact Hi|reflexivity]).
    destruct p as [o'| |].
    + injection G as <- <-. exact L.
    + destruct (scan_line r0) as [a b] eqn:Es. injection G as <- <-. destruct (scan_line_inv _ _ _ Es) as (_ & [->|(-> & ->)]); [rewrite app_length in L; cbn [List.length] in L; lia|cbn; lia].
    + destruct r0 as [|y r0]; [discriminate G|]. destruct (scan_block (y :: r0)) as [a b] eqn:Es. injection G as <- <-. destruct (scan_block_inv _ _ _ Es) as (_ & [E0|(-> & _)]); [rewrite E0, app_length in L; cbn [List.length] in L; lia|cbn; lia].
  - destruct (kw_text_word k) as (c & r & E & Hc & F). rewrite E in G. cbn [app] in G. rewrite (gobble_word _ _ Hc) in G. destruct (take_while id_cont (r ++ s')) as [a b] eqn:Et. injection G as _ <-.
    pose proof (take_while_max _ _ _ _ r s' Et eq_refl F) as L. destruct (take_while_ok _ _ _ _ Et) as (E2 & _). apply (f_equal (@List.length Z)) in E2. rewrite !app_length in E2. lia.
  - destruct W as (c & r & -> & Hc & F). cbn [app] in G. rewrite (gobble_word _ _ Hc) in G. destruct (take_while id_cont (r ++ s')) as [a b] eqn:Et. injection G as _ <-.
    pose proof (take_while_max _ _ _ _ r s' Et eq_refl F) as L. destruct (take_while_ok _ _ _ _ Et) as (E2 & _). apply (f_equal (@List.length Z)) in E2. rewrite !app_length in E2. lia.
  - destruct x' as [|c r]; [destruct (Nn eq_refl)|]. inversion D as [|? ? Hc F]; subst. cbn [app] in G. rewrite (gobble_int _ _ Hc) in G. destruct (scan_int c (r ++ s')) as [a b] eqn:Et. injection G as _ <-.
    unfold scan_int in Et. destruct (r ++ s') as [|x q] eqn:Eq; [injection Et as <- <-; cbn; lia|]. destruct ((c =? 48) && (x =? 120)) eqn:E.
    + apply andb_true_iff in E as (E1 & E2). apply Z.eqb_eq in E1, E2. subst. destruct (take_while is_hex q) as [p0 q0] eqn:Et2. injection Et as <- <-. destruct (take_while_ok _ _ _ _ Et2) as (E2 & _).
      destruct r as [|d r]; [|cbn [app] in Eq; injection Eq as -> _; inversion F; subst; discriminate]. cbn [app] in Eq. subst s'. cbn [List.length]. apply (f_equal (@List.length Z)) in E2. rewrite app_length in E2. lia.
    + destruct (take_while is_digit (x :: q)) as [p0 q0] eqn:Et2. injection Et as <- <-. pose proof (take_while_max _ _ _ _ r s' Et2 (eq_sym Eq) F) as L. destruct (take_while_ok _ _ _ _ Et2) as (E2 & _). rewrite <- Eq in E2. apply (f_equal (@List.length Z)) in E2. rewrite !app_length in E2. lia.
  - change (bs "0x" ++ h) with (48 :: 120 :: h) in G. cbn [app] in G. rewrite gobble_int in G by reflexivity. cbn [scan_int Z.eqb Pos.eqb andb] in G. destruct (take_while is_hex (h ++ s')) as [a b] eqn:Et. injection G as _ <-.
    pose proof (take_while_max _ _ _ _ h s' Et eq_refl Hh) as L. destruct (take_while_ok _ _ _ _ Et) as (E2 & _). apply (f_equal (@List.length Z)) in E2. rewrite !app_length in E2. lia.
  - cbn [app] in G. rewrite <- app_assoc in G. cbn [app] in G. rewrite gobble_str, (scan_str_app _ _ _ B) in G. injection G as _ <-. lia.
  - change (bs "//") with [47; 47] in G. cbn [app] in G. rewrite <- app_assoc in G. cbn [app] in G. rewrite gobble_line, (scan_line_app _ _ Nl) in G. injection G as _ <-. lia.
  - change (bs "/*") with [47; 42] in G. change (bs "*/") with [42; 47] in G. cbn [app] in G. rewrite <- app_assoc in G. cbn [app] in G. rewrite gobble_block, (scan_block_app _ _ Nc) in G. destruct (c ++ 42 :: 47 :: s') eqn:E; [destruct c; discriminate E|]. injection G as _ <-. lia.
Qed.

Lemma gobble_tok s t rest : gobble s = GTok t rest ->
  (exists x, s = x ++ rest /\ x <> [] /\ spells t x /\ longest x rest) \/
  (rest = [] /\ s <> [] /\ ((exists c, t = TLine c /\ s = bs "//" ++ c /\ ~ In 10 c) \/ (exists c, c <> [] /\ t = TBlock c /\ s = bs "/*" ++ c /\ no_close c))).
Proof.
  intros G.
  assert (L : forall x, s = x ++ rest -> x <> [] -> spells t x -> exists x, s = x ++ rest /\ x <> [] /\ spells t x /\ longest x rest).
  { intros x E N Sp. exists x. repeat split; try assumption. intros t' x' s' E' Sp'. rewrite <- E, E' in *. pose proof (gobble_longest _ _ _ _ _ Sp' G) as H. apply (f_equal (@List.length Z)) in E. rewrite !app_length in E. lia. }
  destruct s as [|c r]; [discriminate G|]. destruct (is_ws c) eqn:Hws; [unfold gobble in G; rewrite Hws in G; discriminate G|].
  destruct (Z.eqb_spec c 34) as [->|N34].
  { rewrite gobble_str in G. destruct (scan_str r) as [out r'| |] eqn:Es; try discriminate G. injection G as <- <-. destruct (scan_str_inv _ _ _ _ (le_n _) Es) as (body & -> & B). left. apply (L (34 :: body ++ [34])); [cbn [app]; rewrite <- app_assoc; reflexivity|discriminate|constructor; exact B]. }
  destruct (is_digit c) eqn:Hd.
  { rewrite (gobble_int _ _ Hd) in G. destruct (scan_int c r) as [a b] eqn:Es. injection G as <- <-. destruct (scan_int_inv _ _ _ _ Hd Es) as (E & Sp). left. apply (L a); [exact E| |exact Sp]. intros ->. inversion Sp; subst; congruence. }
  destruct (is_punct c) eqn:Hp.
  { rewrite (gobble_punct _ _ Hp) in G. destruct (punct_at puncts (c :: r)) as [[p r0]|] eqn:Ep; [|discriminate G]. destruct (punct_at_inv _ _ _ _ Ep) as (w & Hi & E). destruct p as [o| |].
    - injection G as <- <-. apply puncts_op in Hi as Hw. subst w. left. apply (L (op_text o)); [exact E|exact (puncts_nonempty _ _ Hi)|constructor].
    - apply puncts_line in Hi. subst w. destruct (scan_line r0) as [a b] eqn:Es. injection G as <- <-. destruct (scan_line_inv _ _ _ Es) as (Nl & [->|(-> & ->)]).
      + left. apply (L (bs "//" ++ a ++ [10])); [rewrite E, <- !app_assoc; reflexivity|discriminate|constructor; exact Nl].
      + right. split; [reflexivity|]. split; [discriminate|]. left. exists a. auto.
    - apply puncts_block in Hi. subst w. destruct r0 as [|y r0]; [discriminate G|]. destruct (scan_block (y :: r0)) as [a b] eqn:Es. injection G as <- <-. destruct (scan_block_inv _ _ _ Es) as (Nc & [E0|(-> & E0)]).
      + left. apply (L (bs "/*" ++ a ++ bs "*/")); [rewrite E, E0, <- !app_assoc; reflexivity|discriminate|constructor; exact Nc].
      + right. split; [reflexivity|]. split; [discriminate|]. right. exists a. rewrite E, E0. split; [rewrite <- E0; discriminate|]. auto. }
  unfold gobble in G. rewrite Hws in G. apply Z.eqb_neq in N34. rewrite N34, Hd, (punct_at_none _ _ Hp) in G. destruct (eat_identifier (c :: r)) as [[w r']|] eqn:Ei; [|discriminate G]. injection G as <- <-. destruct (eat_identifier_inv _ _ _ Ei) as (E & W & _). left. apply (L w); [exact E| |apply word_spells; exact W]. destruct W as (? & ? & -> & _). discriminate.
Qed.
Lemma gobble_none s rest : gobble s = GNone rest -> rest = s \/ (exists c, s = c :: rest /\ is_ws c = true) \/ (s = bs "/*" /\ rest = []).
Proof.
  destruct s as [|c r]; [intros G; injection G as <-; left; reflexivity|]. intros G. destruct (is_ws c) eqn:Hws; [unfold gobble in G; rewrite Hws in G; injection G as <-; right; left; eauto|].
  destruct (Z.eqb_spec c 34) as [->|N34]; [rewrite gobble_str in G; destruct (scan_str r); try discriminate G; injection G as <-; left; reflexivity|].
  destruct (is_digit c) eqn:Hd; [rewrite (gobble_int _ _ Hd) in G; destruct (scan_int c r); discriminate G|].
  destruct (is_punct c) eqn:Hp.
  { rewrite (gobble_punct _ _ Hp) in G. destruct (punct_at puncts (c :: r)) as [[p r0]|] eqn:Ep; [|injection G as <-; left; reflexivity]. destruct (punct_at_inv _ _ _ _ Ep) as (w & Hi & E). destruct p as [o| |]; [discriminate G|destruct (scan_line r0); discriminate G|].
    apply puncts_block in Hi. subst w. destruct r0 as [|y r0]; [|destruct (scan_block (y :: r0)); discriminate G]. injection G as <-. right. right. split; [exact E|reflexivity]. }
  unfold gobble in G. rewrite Hws in G. apply Z.eqb_neq in N34. rewrite N34, Hd, (punct_at_none _ _ Hp) in G. destruct (eat_identifier (c :: r)) as [[w r']|]; [discriminate G|]. injection G as <-. left. reflexivity.
Qed.
(** What may follow a token for it to end there: nothing or whitespace; strings and
    comments end by themselves. *)
Definition ends (t : token) (s : list Z) : Prop := match t with TStr _ | TLine _ | TBlock _ => True | _ => s = [] \/ exists c r, s = c :: r /\ is_ws c = true end.
Lemma ws_cases c : is_ws c = true -> c = 32 \/ c = 9 \/ c = 10 \/ c = 12 \/ c = 13.
Proof. unfold is_ws. intros H. lia. Qed.
Lemma gobble_spells t x s : spells t x -> ends t s -> gobble (x ++ s) = GTok t s.
Proof.
  intros Sp E. inversion Sp as [o|k|w W N|w Nn D|h Hh|body out B|c Nl|c Nc]; subst; cbn [ends] in E.
  - assert (P : punct_at puncts (op_text o ++ s) = Some (AOp o, s)).
    { destruct E as [->|(c & r & -> & Hc)]; [rewrite app_nil_r; destruct o; reflexivity|]. destruct (ws_cases _ Hc) as [->|[->|[->|[->| ->]]]]; destruct o; reflexivity. }
    destruct (op_head o) as (c & r & Eo & Hp). rewrite Eo in *. cbn [app] in *. rewrite (gobble_punct _ _ Hp), P. reflexivity.
  - destruct (kw_text_word k) as (c & r & Ek & Hc & F). rewrite Ek. cbn [app]. rewrite (gobble_word _ _ Hc), take_while_app; [|exact F|].
    + rewrite <- Ek. unfold word. rewrite keyword_text. reflexivity.
    + intros c' r' ->. destruct E as [E|(? & ? & E & Hw)]; [discriminate E|]. injection E as <- <-. destruct (ws_cases _ Hw) as [->|[->|[->|[->| ->]]]]; reflexivity.
  - destruct W as (c & r & -> & Hc & F). cbn [app]. rewrite (gobble_word _ _ Hc), take_while_app; [|exact F|].
    + unfold word. destruct (keyword keywords (c :: r)) as [k|] eqn:Ek; [|reflexivity]. apply keyword_inv in Ek. destruct (N k). congruence.
    + intros c' r' ->. destruct E as [E|(? & ? & E & Hw)]; [discriminate E|]. injection E as <- <-. destruct (ws_cases _ Hw) as [->|[->|[->|[->| ->]]]]; reflexivity.
  - destruct x as [|c r]; [destruct (Nn eq_refl)|]. inversion D as [|? ? Hc F]; subst. cbn [app]. rewrite (gobble_int _ _ Hc).
    assert (Es : scan_int c (r ++ s) = let (a, b) := take_while is_digit (r ++ s) in (c :: a, b)).
    { unfold scan_int. destruct (r ++ s) as [|y q] eqn:Er; [reflexivity|]. destruct ((c =? 48) && (y =? 120)) eqn:E0; [|reflexivity]. apply andb_true_iff in E0 as (_ & E2). apply Z.eqb_eq in E2. subst y.
      destruct r as [|d r]; [cbn [app] in Er; subst s; destruct E as [E|(? & ? & E & Hw)]; [discriminate E|]; injection E as <- _; discriminate Hw|]. cbn [app] in Er. injection Er as -> _. inversion F; subst. discriminate. }
    rewrite Es, take_while_app; [reflexivity|exact F|]. intros c' r' ->. destruct E as [E|(? & ? & E & Hw)]; [discriminate E|]. injection E as <- <-. destruct (ws_cases _ Hw) as [->|[->|[->|[->| ->]]]]; reflexivity.
  - change (bs "0x" ++ h) with (48 :: 120 :: h). cbn [app]. rewrite gobble_int by reflexivity. cbn [scan_int Z.eqb Pos.eqb andb]. rewrite take_while_app; [reflexivity|exact Hh|].
    intros c' r' ->. destruct E as [E|(? & ? & E & Hw)]; [discriminate E|]. injection E as <- <-. destruct (ws_cases _ Hw) as [->|[->|[->|[->| ->]]]]; reflexivity.
  - cbn [app]. rewrite <- app_assoc. cbn [app]. rewrite gobble_str, (scan_str_app _ _ _ B). reflexivity.
  - change (bs "//") with [47; 47]. cbn [app]. rewrite <- app_assoc. cbn [app]. rewrite gobble_line, (scan_line_app _ _ Nl). reflexivity.
  - change (bs "/*") with [47; 42]. change (bs "*/") with [42; 47]. cbn [app]. rewrite <- app_assoc. cbn [app]. rewrite gobble_block, (scan_block_app _ _ Nc). destruct (c ++ 42 :: 47 :: s) eqn:E0; [destruct c; discriminate E0|]. reflexivity.
Qed.

(** *** The loop *)
Lemma gobble_shrinks s t rest : gobble s = GTok t rest -> (List.length rest < List.length s)%nat.
Proof.
  intros G. destruct (gobble_tok _ _ _ G) as [(x & -> & Hx & _)|(-> & Hs & _)].
  - rewrite app_length. destruct x; [congruence|cbn; lia].
  - destruct s; [congruence|cbn; lia].
Qed.
Lemma gobble_none_shrinks s rest : gobble s = GNone rest -> (List.length rest =? List.length s)%nat = false -> (List.length rest < List.length s)%nat.
Proof. intros G N. apply Nat.eqb_neq in N. destruct (gobble_none _ _ G) as [->|[(c & -> & _)|(-> & ->)]]; cbn in *; lia. Qed.
Lemma tok_loop_total fuel : forall s i l k, (List.length s < fuel)%nat -> tok_loop fuel s i l k <> Hang.
Proof.
  induction fuel as [|fuel IH]; intros s i l k Hf; [lia|]. cbn [tok_loop]. destruct s as [|c r]; [discriminate|]. destruct (gobble (c :: r)) as [t rest|rest|] eqn:G; [| |discriminate].
  - pose proof (gobble_shrinks _ _ _ G) as Hs. match goal with |- bind ?X _ <> _ => destruct X eqn:E; try discriminate end. exfalso. revert E. apply IH. lia.
  - destruct (List.length rest =? 0)%nat; [discriminate|]. destruct (List.length rest =? List.length (c :: r))%nat eqn:E; [discriminate|]. pose proof (gobble_none_shrinks _ _ G E). destruct (c =? 10); apply IH; lia.
Qed.
Lemma tok_loop_munches fuel : forall s i l k ts, tok_loop fuel s i l k = Ok ts -> munches s (map fst ts).
Proof.
  induction fuel as [|fuel IH]; intros s i l k ts H; [discriminate H|]. cbn [tok_loop] in H. destruct s as [|c r]; [injection H as <-; constructor|]. destruct (gobble (c :: r)) as [t rest|rest|] eqn:G; [| |discriminate H].
  - match type of H with bind ?X _ = _ => destruct X as [ts'| | |] eqn:E; try discriminate H end. cbn [bind] in H. injection H as <-. cbn [map fst]. destruct (gobble_tok _ _ _ G) as [(x & -> & _ & Sp & L)|(-> & _ & D)].
    + apply mn_tok; [exact Sp|exact L|]. eapply IH. exact E.
    + assert (ts' = []) as -> by (destruct fuel; [discriminate E|cbn in E; congruence]). destruct D as [(c' & -> & -> & N)|(c' & N & -> & -> & Nc)]; [apply mn_line; exact N|apply mn_block; assumption].
  - destruct (List.length rest =? 0)%nat eqn:E0.
    + injection H as <-. apply Nat.eqb_eq, length_zero_iff_nil in E0. subst rest. destruct (gobble_none _ _ G) as [E|[(c' & E & Hw)|(E & _)]]; [discriminate E|rewrite E; apply mn_ws; [exact Hw|constructor]|rewrite E; exact mn_open].
    + destruct (List.length rest =? List.length (c :: r))%nat eqn:E; [discriminate H|]. destruct (gobble_none _ _ G) as [->|[(c' & E1 & Hw)|(_ & ->)]]; [rewrite Nat.eqb_refl in E; discriminate E| |discriminate E0].
      injection E1 as <- ->. apply mn_ws; [exact Hw|]. destruct (c =? 10); eapply IH; exact H.
Qed.
Lemma munches_covers s ts : munches s ts -> covers s ts.
Proof. induction 1; [exact cv_end|apply cv_ws; assumption|apply cv_tok; assumption|apply cv_line; assumption|apply cv_block; assumption|exact cv_open]. Qed.

(** Errors: everything before is fine and nothing can start where it points. *)
Definition no_token (s : list Z) : Prop := forall t x s', s = x ++ s' -> ~ spells t x.
Lemma gobble_stuck c r : gobble (c :: r) = GNone (c :: r) -> is_ws c = false /\ no_token (c :: r).
Proof.
  intros G. assert (Hw : is_ws c = false). { destruct (is_ws c) eqn:E; [|reflexivity]. unfold gobble in G. rewrite E in G. injection G as G. apply (f_equal (@List.length Z)) in G. cbn in G. lia. }
  split; [exact Hw|]. intros t x s' E Sp.
  inversion Sp as [o|k|w W N|w Nn D|h Hh|body out B|cc Nl|cc Nc]; subst.
  - destruct (op_head o) as (c0 & r0 & E0 & P). pose proof (op_in o) as Hi. rewrite E0 in *. cbn [app] in E. injection E as <- ->. rewrite (gobble_punct _ _ P) in G. destruct (punct_at puncts (c :: r0 ++ s')) as [[p r1]|] eqn:Ep.
    + destruct p as [o'| |]; [discriminate G|destruct (scan_line r1); discriminate G|]. destruct r1 as [|y r1]; [discriminate G|destruct (scan_block (y :: r1)); discriminate G].
    + clear - Hi Ep. assert (X : forall tab, In (c :: r0, AOp o) tab -> punct_at tab (c :: r0 ++ s') <> None); [|exact (X _ Hi Ep)]. induction tab as [|[w p] tab IH]; intros H; [destruct H|]. cbn [punct_at]. destruct (eat (c :: r0 ++ s') w) eqn:Ee; [discriminate|]. destruct H as [H|H]; [injection H as -> ->|apply IH; exact H]. assert (E' : eat (c :: r0 ++ s') (c :: r0) = Some s') by (apply eat_spec; reflexivity). congruence.
  - destruct (kw_text_word k) as (c0 & r0 & E0 & Hc & F). rewrite E0 in E. cbn [app] in E. injection E as <- ->. rewrite (gobble_word _ _ Hc) in G. destruct (take_while id_cont (r0 ++ s')); discriminate G.
  - destruct W as (c0 & r0 & -> & Hc & F). cbn [app] in E. injection E as <- ->. rewrite (gobble_word _ _ Hc) in G. destruct (take_while id_cont (r0 ++ s')); discriminate G.
  - destruct x as [|c0 r0]; [destruct (Nn eq_refl)|]. inversion D as [|? ? Hc F]; subst. cbn [app] in E. injection E as <- ->. rewrite (gobble_int _ _ Hc) in G. destruct (scan_int c (r0 ++ s')); discriminate G.
  - change (bs "0x" ++ h) with (48 :: 120 :: h) in E. cbn [app] in E. injection E as -> ->. rewrite gobble_int in G by reflexivity. destruct (scan_int 48 (120 :: h ++ s')); discriminate G.
  - cbn [app] in E. rewrite <- app_assoc in E. cbn [app] in E. injection E as -> ->. rewrite gobble_str, (scan_str_app _ _ _ B) in G. discriminate G.
  - change (bs "//") with [47; 47] in E. cbn [app] in E. rewrite <- app_assoc in E. cbn [app] in E. injection E as -> ->. rewrite gobble_line, (scan_line_app _ _ Nl) in G. discriminate G.
  - change (bs "/*") with [47; 42] in E. change (bs "*/") with [42; 47] in E. cbn [app] in E. rewrite <- app_assoc in E. cbn [app] in E. injection E as -> ->. rewrite gobble_block, (scan_block_app _ _ Nc) in G. destruct (cc ++ 42 :: 47 :: s'); discriminate G.
Qed.
(** [covers] without the cases for the end of the text. *)
Inductive before : list Z -> Prop :=
| bf_end : before []
| bf_ws c s : is_ws c = true -> before s -> before (c :: s)
| bf_tok t x s : spells t x -> before s -> before (x ++ s).
Lemma tok_loop_err fuel : forall s i l k j, tok_loop fuel s i l k = Err j -> exists pre c r, s = pre ++ c :: r /\ j = i + Z.of_nat (List.length pre) /\ before pre /\ is_ws c = false /\ no_token (c :: r).
Proof.
  induction fuel as [|fuel IH]; intros s i l k j H; [discriminate H|]. cbn [tok_loop] in H. destruct s as [|c r]; [discriminate H|]. destruct (gobble (c :: r)) as [t rest|rest|] eqn:G; [| |discriminate H].
  - match type of H with bind ?X _ = _ => destruct X as [ts'|e| |] eqn:E; try discriminate H end. cbn [bind] in H. injection H as ->. destruct (gobble_tok _ _ _ G) as [(x & Ex & _ & Sp & L)|(-> & _ & D)].
    + rewrite Ex in *. destruct (IH _ _ _ _ _ E) as (pre & c' & r' & -> & -> & B & Hw & N). exists (x ++ pre), c', r'. split; [rewrite app_assoc; reflexivity|]. split; [rewrite !app_length; lia|]. split; [econstructor; eassumption|]. split; assumption.
    + destruct fuel; [discriminate E|cbn in E; discriminate E].
  - destruct (List.length rest =? 0)%nat eqn:E0; [discriminate H|]. destruct (List.length rest =? List.length (c :: r))%nat eqn:E.
    + injection H as <-. exists [], c, r. split; [reflexivity|]. split; [cbn; lia|]. split; [constructor|]. apply gobble_stuck. apply Nat.eqb_eq in E. destruct (gobble_none _ _ G) as [->|[(c' & E1 & _)|(_ & ->)]]; [exact G| |discriminate E0]. injection E1 as _ ->. cbn in E. lia.
    + destruct (gobble_none _ _ G) as [->|[(c' & E1 & Hw)|(_ & ->)]]; [rewrite Nat.eqb_refl in E; discriminate E| |discriminate E0]. injection E1 as <- ->.
      assert (X : exists l' k', tok_loop fuel rest (i + 1) l' k' = Err j). { replace (i + 1) with (i + (Z.of_nat (List.length (c :: rest)) - Z.of_nat (List.length rest))) by (cbn [List.length]; lia). destruct (c =? 10); eauto. }
      destruct X as (l' & k' & X). destruct (IH _ _ _ _ _ X) as (pre & c' & r' & -> & -> & B & Hw' & N). exists (c :: pre), c', r'. split; [reflexivity|]. split; [cbn [List.length]; lia|]. split; [constructor; assumption|]. split; assumption.
Qed.

(** Texts separated by whitespace. *)
Fixpoint spaced (xs : list (token * list Z * list Z)) : list Z := match xs with [] => [] | (t, x, sep) :: xs => x ++ sep ++ spaced xs end.
Lemma skip_ws w : forall fuel s i l k, ws w -> s <> [] -> (List.length (w ++ s) < fuel)%nat -> exists fuel' i' l' k', (List.length s < fuel')%nat /\ tok_loop fuel (w ++ s) i l k = tok_loop fuel' s i' l' k'.
Proof.
  induction w as [|c w IH]; intros fuel s i l k W Hs Hf; [exists fuel, i, l, k; auto|]. inversion W as [|? ? W1 W2]; subst. destruct fuel as [|fuel]; [lia|]. cbn [app List.length] in Hf.
  assert (G : gobble (c :: w ++ s) = GNone (w ++ s)) by (unfold gobble; rewrite W1; reflexivity).
  assert (E0 : (List.length (w ++ s) =? 0)%nat = false) by (apply Nat.eqb_neq; rewrite app_length; destruct s; [congruence|cbn; lia]).
  assert (E1 : (List.length (w ++ s) =? List.length (c :: w ++ s))%nat = false) by (apply Nat.eqb_neq; cbn; lia).
  cbn [app tok_loop]. rewrite G, E0, E1. destruct (c =? 10); apply IH; try assumption; lia.
Qed.
Lemma all_ws w : forall fuel i l k, ws w -> (List.length w < fuel)%nat -> tok_loop fuel w i l k = Ok [].
Proof.
  induction w as [|c w IH]; intros fuel i l k W Hf; [destruct fuel; [lia|reflexivity]|]. inversion W as [|? ? W1 W2]; subst. destruct fuel as [|fuel]; [lia|]. cbn [List.length] in Hf.
  assert (G : gobble (c :: w) = GNone w) by (unfold gobble; rewrite W1; reflexivity). cbn [tok_loop]. rewrite G. destruct (List.length w =? 0)%nat; [reflexivity|].
  assert (E1 : (List.length w =? List.length (c :: w))%nat = false) by (apply Nat.eqb_neq; cbn; lia). rewrite E1. destruct (c =? 10); apply IH; try assumption; lia.
Qed.
Lemma spells_nonempty t x : spells t x -> x <> [].
Proof.
  intros H. inversion H; subst; try discriminate; [destruct o; discriminate|destruct k; discriminate| |assumption].
  match goal with W : ident_word _ |- _ => destruct W as (? & ? & -> & _); discriminate end.
Qed.
Lemma tok_spaced xs : Forall (fun e => spells (fst (fst e)) (snd (fst e)) /\ ws (snd e) /\ snd e <> []) xs -> forall lead fuel i l k, ws lead -> (List.length (lead ++ spaced xs) < fuel)%nat ->
  exists ts, tok_loop fuel (lead ++ spaced xs) i l k = Ok ts /\ map fst ts = map (fun e => fst (fst e)) xs.
Proof.
  induction 1 as [|[[t x] sep] xs (Sp & Ws & Nn) _ IH]; intros lead fuel i l k Wl Hf; cbn [fst snd] in *.
  - cbn [spaced] in *. rewrite app_nil_r in *. exists []. split; [apply all_ws; assumption|reflexivity].
  - cbn [spaced] in *. destruct (skip_ws lead fuel (x ++ sep ++ spaced xs) i l k Wl) as (fuel' & i' & l' & k' & Hf' & E); [intros E; apply app_eq_nil in E as (E & _); exact (spells_nonempty _ _ Sp E)|exact Hf|]. rewrite E.
    assert (G : gobble (x ++ sep ++ spaced xs) = GTok t (sep ++ spaced xs)).
    { apply gobble_spells; [exact Sp|]. destruct sep as [|c sep]; [congruence|]. inversion Ws; subst. destruct t; cbn [ends app]; auto; right; eauto. }
    destruct fuel' as [|fuel']; [lia|]. cbn [tok_loop]. destruct (x ++ sep ++ spaced xs) as [|c0 r0] eqn:Ex; [apply app_eq_nil in Ex as (Ex & _); destruct (spells_nonempty _ _ Sp Ex)|]. rewrite G.
    pose proof (gobble_shrinks _ _ _ G) as Hs.
    match goal with |- context [tok_loop fuel' (sep ++ spaced xs) ?i ?l ?k] => destruct (IH sep fuel' i l k Ws ltac:(lia)) as (ts & -> & M) end. cbn [bind]. eexists. split; [reflexivity|]. cbn [map fst]. rewrite M. reflexivity.
Qed.

(** *** Positions *)
Lemma newlines_app a b : newlines (a ++ b) = newlines a + newlines b.
Proof. unfold newlines. rewrite filter_app, app_length. lia. Qed.
Lemma newlines_none x : ~ In 10 x -> newlines x = 0.
Proof.
  induction x as [|c x IH]; intros H; [reflexivity|]. unfold newlines in *. cbn [filter]. destruct (Z.eqb_spec c 10) as [->|N]; [destruct H; left; reflexivity|]. apply IH. intros Hi. apply H. right. exact Hi.
Qed.
Lemma take_while_prefix f a b : Forall (fun c => f c = true) a -> take_while f (a ++ b) = (a ++ fst (take_while f b), snd (take_while f b)).
Proof. induction 1 as [|c a E _ IH]; cbn [app]; [apply surjective_pairing|]. cbn [take_while]. rewrite E, IH. reflexivity. Qed.
Lemma column_app pre x : ~ In 10 x -> column (pre ++ x) = column pre + Z.of_nat (List.length x).
Proof.
  intros H. unfold column. rewrite rev_app_distr, take_while_prefix.
  - cbn [fst]. rewrite app_length, rev_length. lia.
  - apply Forall_forall. intros c Hc. apply in_rev in Hc. apply negb_true_iff, Z.eqb_neq. intros ->. exact (H Hc).
Qed.
Lemma column_newline pre : column (pre ++ [10]) = 0.
Proof. unfold column. rewrite rev_app_distr. reflexivity. Qed.
Lemma first_line_app pre x : ~ In 10 x -> first_line (pre ++ x) = first_line pre.
Proof.
  intros H. unfold first_line. rewrite existsb_app. replace (existsb (fun c => c =? 10) x) with false; [rewrite orb_false_r; reflexivity|]. symmetry. apply not_true_iff_false. intros E. apply existsb_exists in E as (c & Hc & E). apply Z.eqb_eq in E. subst. exact (H Hc).
Qed.
Lemma first_line_newline pre : first_line (pre ++ [10]) = false.
Proof. unfold first_line. rewrite existsb_app. cbn. rewrite orb_true_r. reflexivity. Qed.
Lemma body_newline body out : str_body body out -> In 10 body -> In 10 out.
Proof.
  induction 1 as [|c body out N1 N2 _ IH|c body out Hc _ IH|h body out Hh Hb _ IH|h d e body out Hh Hd He _ IH]; intros Hi.
  - destruct Hi.
  - destruct Hi as [->|Hi]; [left; reflexivity|right; auto].
  - destruct Hi as [Hi|[->|Hi]]; [discriminate Hi|left; reflexivity|right; auto].
  - destruct Hi as [Hi|[->|Hi]]; [discriminate Hi|discriminate Hh|right; auto].
  - destruct Hi as [Hi|[->|[->|Hi]]]; [discriminate Hi|discriminate Hh|discriminate Hd|right; auto].
Qed.
Lemma one_line_text t x : spells t x -> one_line t -> ~ In 10 x.
Proof.
  intros Sp O. inversion Sp as [o|k|w W N|w Nn D|h Hh|body out B|c Nl|c Nc]; subst; cbn [one_line] in O; try contradiction.
  - destruct o; vm_compute; intuition congruence.
  - destruct k; vm_compute; intuition congruence.
  - destruct W as (c & r & -> & Hc & F). intros [->|Hi]; [discriminate Hc|]. rewrite Forall_forall in F. apply F in Hi. discriminate Hi.
  - intros Hi. unfold digits in D. rewrite Forall_forall in D. apply D in Hi. discriminate Hi.
  - intros Hi. apply in_app_or in Hi as [Hi|Hi]; [vm_compute in Hi; intuition congruence|]. unfold hexdigits in Hh. rewrite Forall_forall in Hh. apply Hh in Hi. discriminate Hi.
  - intros [Hi|Hi]; [discriminate Hi|]. apply in_app_or in Hi as [Hi|[Hi|[]]]; [|discriminate Hi]. exact (O (body_newline _ _ B Hi)).
Qed.
Lemma tok_loop_placed fuel : forall pre s i l k ts, tok_loop fuel s i l k = Ok ts -> Forall (fun e => one_line (fst e)) ts ->
  l = 1 + newlines pre -> i - k = column pre + (if first_line pre then 64 else 0) -> placed pre s ts.
Proof.
  induction fuel as [|fuel IH]; intros pre s i l k ts H O Hl Hk; [discriminate H|]. cbn [tok_loop] in H. destruct s as [|c r]; [injection H as <-; constructor|]. destruct (gobble (c :: r)) as [t rest|rest|] eqn:G; [| |discriminate H].
  - match type of H with bind ?X _ = _ => destruct X as [ts'| | |] eqn:E; try discriminate H end. cbn [bind] in H. apply Ok_inj in H. subst ts. inversion O as [|? ? O1 O2]; subst. cbn [fst] in O1. destruct (gobble_tok _ _ _ G) as [(x & Ex & _ & Sp & L)|(-> & _ & D)].
    + rewrite Ex in *. pose proof (one_line_text _ _ Sp O1) as Nx. assert (Et : match t with TLine _ => 1 + newlines pre + 1 | TBlock s => 1 + newlines pre + newlines s | _ => 1 + newlines pre end = 1 + newlines pre) by (destruct t; cbn in O1; try contradiction; reflexivity). rewrite Et in *.
      apply pl_tok; [exact Sp|reflexivity|reflexivity|cbn [col_start]; lia|cbn [col_start col_stop]; rewrite app_length; lia|].
      eapply IH; [exact E|exact O2|rewrite newlines_app, (newlines_none x Nx); lia|]. rewrite column_app, first_line_app by exact Nx. rewrite app_length. lia.
    + destruct D as [(c' & -> & _)|(c' & _ & -> & _)]; destruct O1.
  - destruct (List.length rest =? 0)%nat eqn:E0.
    + injection H as <-. apply Nat.eqb_eq, length_zero_iff_nil in E0. subst rest. destruct (gobble_none _ _ G) as [E|[(c' & E & Hw)|(E & _)]]; [discriminate E|rewrite E; apply pl_ws; [exact Hw|constructor]|rewrite E; exact (pl_open pre)].
    + destruct (List.length rest =? List.length (c :: r))%nat eqn:E; [discriminate H|]. destruct (gobble_none _ _ G) as [->|[(c' & E1 & Hw)|(_ & ->)]]; [rewrite Nat.eqb_refl in E; discriminate E| |discriminate E0].
      injection E1 as <- ->. apply pl_ws; [exact Hw|]. replace (Z.of_nat (List.length (c :: rest)) - Z.of_nat (List.length rest)) with 1 in H by (cbn [List.length]; lia). destruct (Z.eqb_spec c 10) as [->|N].
      * eapply IH; [exact H|exact O|rewrite newlines_app; change (newlines [10]) with 1; lia|rewrite column_newline, first_line_newline; lia].
      * assert (Nc : ~ In 10 [c]) by (intros [->|[]]; congruence). eapply IH; [exact H|exact O|rewrite newlines_app, (newlines_none _ Nc); lia|]. rewrite column_app, first_line_app by exact Nc. cbn [List.length]. lia.
Qed.
