(** C29: imports. *)
From Verif Require Import Base Scalar ConstInt Tokens Ast Parse ParseFacts P_Tok Front Program FrontFacts P_Types P_Args ElabSpec ElabFacts ElabTypes ElabProgram P_Program ImportSpec.
From Coq Require Import Lia.
Open Scope string_scope. Open Scope Z_scope. Open Scope list_scope.

Section Facts.
  Variables (en : env) (n : nat) (rs : resolver).
  Notation file := (file rs). Notation imports := (imports rs). Notation reach := (reach rs). Notation grounded := (grounded rs).
  Notation load := (load en n rs). Notation imported := (from_ast_imported en n rs).

  Lemma load_O a c st log : load 0 a c st log = (log, Hang). Proof. reflexivity. Qed.
  Lemma load_nil k c st log : load (S k) [] c st log = (log, Ok (c, st)). Proof. reflexivity. Qed.
  Lemma load_cons k d a c st log : load (S k) (d :: a) c st log =
    match d with
    | DImport _ from =>
        bindl (r_norm rs from) log (fun x =>
        match mget x c with
        | Some _ => load (S k) a c st log
        | None =>
            bindl (r_load rs x) (log ++ [x]) (fun t =>
            match t with
            | None => (log ++ [x], Err XImportMissing)
            | Some text =>
                bindl (parsed (parse text)) (log ++ [x]) (fun b =>
                let (log, r) := load k b c st (log ++ [x]) in
                bindl r log (fun r =>
                let (c, st) := r : cache * list field in
                bindl (imported b c st) log (fun q => load (S k) a (mput x q c) (p_store q) log)))
            end)
        end)
    | _ => load (S k) a c st log
    end.
  Proof. destruct d; reflexivity. Qed.

  Lemma parse_never_hangs text : parse text <> Hang.
  Proof. unfold parse. pose proof (total text true) as T. destruct (tokenize text true); try discriminate; [apply parse_total|congruence]. Qed.
  Lemma file_fun x b b' : file x b -> file x b' -> b = b'.
  Proof. intros (t & E & P) (t' & E' & P'). rewrite E in E'. injection E' as ->. rewrite P in P'. injection P'. auto. Qed.
  Lemma imports_tail d a x : imports a x -> imports (d :: a) x.
  Proof. intros (i & f & I & E). exists i, f. split; [right; exact I|exact E]. Qed.
  Lemma imports_nil x : ~ imports [] x. Proof. intros (i & f & I & _). exact I. Qed.
  Lemma reach_tail d a x : reach a x -> reach (d :: a) x.
  Proof. intros H. inversion H; subst; [apply reach_direct, imports_tail; assumption|eapply reach_through; eauto using imports_tail]. Qed.
  Lemma reach_trans a x b y : reach a x -> file x b -> reach b y -> reach a y.
  Proof. intros H. revert b y. induction H; intros b' z F R; [eapply reach_through; eassumption|eapply reach_through; eauto]. Qed.
  Lemma grounded_reach a x b : grounded a -> reach a x -> file x b -> grounded b.
  Proof. intros G R. revert G b. induction R; intros G b' F; inversion G as [? K]; subst; eauto. Qed.
  Lemma grounded_no_loop b : grounded b -> forall x, file x b -> ~ reach b x.
  Proof.
    induction 1 as [b _ IH]. intros x F R. inversion R; subst.
    - exact (IH _ _ H F x F R).
    - refine (IH _ _ H H0 _ H0 _). eapply reach_trans; [exact H1|exact F|]. apply reach_direct. exact H.
  Qed.
  Lemma grounded_acyclic a : grounded a -> acyclic rs a.
  Proof. intros G x b R F. apply grounded_no_loop; [eapply grounded_reach; eassumption|exact F]. Qed.

  (** ** Each file is loaded once *)
  Lemma once : forall k a c st log stack, (forall y, In y log -> In y (map fst c) \/ In y stack) -> NoDup log -> (forall y, In y stack -> ~ reach a y) -> acyclic rs a ->
    NoDup (fst (load k a c st log)) /\
    match snd (load k a c st log) with Ok (c', _) => (forall y, In y (fst (load k a c st log)) -> In y (map fst c') \/ In y stack) /\ incl (map fst c) (map fst c') | _ => True end.
  Proof.
    induction k as [|k IHk]; [intros; rewrite load_O; cbn [bindl fst snd]; auto|]. induction a as [|d a IHa]; intros c st log stack L N St Ac.
    - rewrite load_nil. cbn [fst snd]. split; [exact N|]. split; [exact L|apply incl_refl].
    - assert (Tail : forall c st log, (forall y, In y log -> In y (map fst c) \/ In y stack) -> NoDup log -> NoDup (fst (load (S k) a c st log)) /\
        match snd (load (S k) a c st log) with Ok (c', _) => (forall y, In y (fst (load (S k) a c st log)) -> In y (map fst c') \/ In y stack) /\ incl (map fst c) (map fst c') | _ => True end).
      { intros c0 st0 log0 L0 N0. apply IHa; [exact L0|exact N0|intros y Hy R; apply (St y Hy), reach_tail, R|intros y b R; apply Ac, reach_tail, R]. }
      rewrite load_cons. destruct d as [? ? ?|items from|? ?|? ? ?]; try (apply Tail; assumption). destruct (r_norm rs from) as [x| | |] eqn:Ex; cbn [bindl fst snd]; auto.
      destruct (mget x c) as [q0|] eqn:Mx; [apply Tail; assumption|].
      assert (Im : imports (DImport items from :: a) x) by (exists items, from; split; [left; reflexivity|exact Ex]).
      assert (Nx : NoDup (log ++ [x])).
      { apply NoDup_rev in N. rewrite <- (rev_involutive (log ++ [x])). apply NoDup_rev. rewrite rev_app_distr. cbn [rev app]. constructor; [|exact N]. rewrite <- in_rev. intros Hx.
        destruct (L _ Hx) as [K|K]; [apply mget_none in Mx; contradiction|]. apply (St _ K), reach_direct, Im. }
      destruct (r_load rs x) as [[text|]| | |] eqn:El; cbn [bindl fst snd]; auto. destruct (parse text) as [b| | |] eqn:Ep; cbn [parsed bindl fst snd]; auto.
      assert (Fx : file x b) by (exists text; auto).
      specialize (IHk b c st (log ++ [x]) (x :: stack)). destruct IHk as [K1 K2].
      { intros y Hy. apply in_app_or in Hy as [Hy|[->|[]]]; [|right; left; reflexivity]. destruct (L _ Hy); [left; assumption|right; right; assumption]. }
      { exact Nx. }
      { intros y [<-|Hy] R; [eapply Ac; [apply reach_direct, Im|exact Fx|exact R]|]. apply (St y Hy). eapply reach_through; eassumption. }
      { intros y b' R F. apply Ac; [|exact F]. eapply reach_through; eassumption. }
      destruct (load k b c st (log ++ [x])) as [log1 r]. cbn [fst snd] in K1, K2. destruct r as [[c1 st1]| | |]; cbn [bindl fst snd]; auto.
      destruct K2 as [K2 K3]. destruct (imported b c1 st1) as [q| | |] eqn:Eq; cbn [bindl fst snd]; auto.
      assert (Keys : incl (map fst c1) (map fst (mput x q c1)) /\ In x (map fst (mput x q c1))).
      { rewrite mput_keys. destruct (existsb _ _) eqn:Ee; split; auto using incl_refl, incl_appl; [|apply in_or_app; right; left; reflexivity].
        apply existsb_exists in Ee as (y & Hy & E). apply name_eqb_eq in E as ->. exact Hy. }
      destruct Keys as [Ky1 Ky2]. destruct (Tail (mput x q c1) (p_store q) log1) as [T1 T2].
      { intros y Hy. destruct (K2 _ Hy) as [H|[<-|H]]; auto. }
      { exact K1. }
      split; [exact T1|]. destruct (snd (load (S k) a (mput x q c1) (p_store q) log1)) as [[c2 st2]| | |]; auto. destruct T2 as [T2 T3]. split; [exact T2|].
      eapply incl_tran; [exact K3|]. eapply incl_tran; eassumption.
  Qed.

  (** ** Termination *)
  Definition stuck (a : aprogram) : Prop :=
    (exists from, r_norm rs from = Hang) \/ (exists x, reach a x /\ r_load rs x = Hang) \/ (exists x b c st, reach a x /\ file x b /\ imported b c st = Hang).
  Definition settles (K : nat) (a : aprogram) : Prop :=
    (forall k c st log, (K <= k)%nat -> load k a c st log = load K a c st log) /\ (forall c st log, snd (load K a c st log) = Hang -> stuck a).
  Lemma settles_mono K K' a : (K <= K')%nat -> settles K a -> settles K' a.
  Proof. intros L [A B]. split; [intros; rewrite (A k), (A K') by lia; reflexivity|]. intros c st log. rewrite A by exact L. apply B. Qed.
  Lemma stuck_tail d a : stuck a -> stuck (d :: a).
  Proof.
    intros [H|[(x & R & H)|(x & b & c & st & R & F & H)]]; [left; exact H|right; left; exists x; split; [apply reach_tail, R|exact H]|right; right].
    exists x, b, c, st. split; [apply reach_tail, R|auto].
  Qed.
  Lemma settles_step K a : (forall x b, imports a x -> file x b -> settles K b) -> settles (S K) a.
  Proof.
    induction a as [|d a IH]; intros H.
    - split; [intros [|k] ? ? ? ?; [lia|reflexivity]|]. intros c st log. rewrite load_nil. discriminate.
    - destruct IH as [A B]; [intros x b I F; apply (H x b); [apply imports_tail, I|exact F]|]. split.
      + intros [|k] c st log L; [lia|]. rewrite !load_cons. destruct d as [? ? ?|items from|? ?|? ? ?]; try (apply A; exact L). destruct (r_norm rs from) as [x| | |] eqn:Ex; try reflexivity. cbn [bindl].
        destruct (mget x c); [apply A; exact L|]. destruct (r_load rs x) as [[text|]| | |] eqn:El; try reflexivity. cbn [bindl]. destruct (parse text) as [b| | |] eqn:Ep; try reflexivity. cbn [parsed bindl].
        destruct (H x b) as [C _]; [exists items, from; split; [left; reflexivity|exact Ex]|exists text; auto|]. rewrite (C k) by lia. destruct (load K b c st (log ++ [x])) as [log1 [[c1 st1]| | |]]; try reflexivity. cbn [bindl].
        destruct (imported b c1 st1); try reflexivity. cbn [bindl]. apply A. exact L.
      + intros c st log. rewrite load_cons. destruct d as [? ? ?|items from|? ?|? ? ?]; try (intros E; apply B in E; apply stuck_tail, E). destruct (r_norm rs from) as [x| | |] eqn:Ex; cbn [bindl snd]; try discriminate.
        2:{ intros _. left. eauto. }
        assert (Im : imports (DImport items from :: a) x) by (exists items, from; split; [left; reflexivity|exact Ex]).
        destruct (mget x c); [intros E; apply B in E; apply stuck_tail, E|]. destruct (r_load rs x) as [[text|]| | |] eqn:El; cbn [bindl snd]; try discriminate.
        2:{ intros _. right. left. exists x. split; [apply reach_direct, Im|exact El]. }
        pose proof (parse_never_hangs text) as Np. destruct (parse text) as [b| | |] eqn:Ep; cbn [parsed bindl snd]; try discriminate; [|congruence].
        assert (Fx : file x b) by (exists text; auto). destruct (H x b Im Fx) as [_ C]. specialize (C c st (log ++ [x])). destruct (load K b c st (log ++ [x])) as [log1 [[c1 st1]| | |]]; cbn [bindl snd] in *; try discriminate.
        * destruct (imported b c1 st1) eqn:Ei; cbn [bindl snd]; try discriminate; [intros E; apply B in E; apply stuck_tail, E|]. intros _. right. right. exists x, b, c1, st1. split; [apply reach_direct, Im|auto].
        * intros _. destruct C as [C|[(y & R & C)|(y & b' & c' & st' & R & F & C)]]; [reflexivity|left; exact C|right; left; exists y; split; [eapply reach_through; eassumption|exact C]|].
          right. right. exists y, b', c', st'. split; [eapply reach_through; eassumption|auto].
  Qed.
  Lemma settles_exists a : grounded a -> exists K, settles K a.
  Proof.
    induction 1 as [a _ IH]. enough (E : exists K, forall x b, imports a x -> file x b -> settles K b) by (destruct E as [K E]; exists (S K); apply settles_step, E).
    assert (IH' : forall x b, imports a x -> file x b -> exists K, settles K b) by (intros; eapply IH; eassumption). clear IH. induction a as [|d a IHa]; [exists O; intros x b I; destruct (imports_nil _ I)|].
    destruct IHa as [K HK]; [intros x b I; apply IH', imports_tail, I|]. destruct d as [? ? ?|items from|? ?|? ? ?].
    2:{ assert (Q : forall x, r_norm rs from = Ok x -> exists K', forall b, file x b -> settles K' b).
        { intros x Ex. destruct (r_load rs x) as [[text|]| | |] eqn:El; try (exists O; intros b (t & E & _); congruence).
          destruct (parse text) as [b| | |] eqn:Ep; try (exists O; intros b' (t & E & P); congruence).
          destruct (IH' x b) as [K' Hk]; [exists items, from; split; [left; reflexivity|exact Ex]|exists text; auto|]. exists K'. intros b' (t & E & P). replace b' with b by congruence. exact Hk. }
        destruct (r_norm rs from) as [x| | |] eqn:Ex.
        1:{ destruct (Q x eq_refl) as [K' HK']. exists (Nat.max K K'). intros y b (i & f & [I|I] & E) F.
            - injection I as <- <-. rewrite Ex in E. injection E as <-. eapply settles_mono; [|apply HK'; exact F]. lia.
            - eapply settles_mono; [|eapply HK; [exists i, f; split; eassumption|exact F]]. lia. }
        all: exists K; intros y b (i0 & f0 & [I|I] & E) F; [injection I as <- <-; congruence|]; eapply HK; [exists i0, f0; split; eassumption|exact F]. }
    all: exists K; intros y b (i0 & f0 & [I|I] & E) F; [discriminate I|]; eapply HK; [exists i0, f0; split; eassumption|exact F].
  Qed.

  (** ** Successful loads *)
  (** [q] is the meaning of the file [x], given in terms of the meanings of the files it imports. *)
  Inductive meaning : name -> prog -> Prop :=
  | Meaning x b c st q : file x b -> (forall y, imports b y -> In y (map fst c)) -> (forall y q', mget y c = Some q' -> meaning y q') -> imported b c st = Ok q -> meaning x q.
  Definition kept (q : prog) (st : list field) : Prop := forall i f, fget q i = Some f -> exists f', nth_error st i = Some f' /\ same f f'.
  Lemma same_trans f g h : same f g -> same g h -> same f h.
  Proof. intros [(A1 & A2 & A3 & A4 & A5 & A6 & A7) A8] [(B1 & B2 & B3 & B4 & B5 & B6 & B7) B8]. split; [|congruence]. repeat split; congruence. Qed.

  Lemma loaded : forall k a c st log log' c' st', load k a c st log = (log', Ok (c', st')) -> (forall x b, reach a x -> file x b -> Forall clean_decl b) ->
    (forall x q, mget x c = Some q -> meaning x q /\ kept q st) -> (forall x b, In x (map fst c) -> file x b -> grounded b) ->
    (forall x, imports a x -> In x (map fst c')) /\ grounded a /\
    (forall x q, mget x c' = Some q -> meaning x q /\ kept q st') /\ (forall x b, In x (map fst c') -> file x b -> grounded b) /\
    incl (map fst c) (map fst c') /\ (forall i f, nth_error st i = Some f -> exists f', nth_error st' i = Some f' /\ same f f') /\
    (forall x, In x (map fst c') -> In x (map fst c) \/ reach a x) /\ (forall x, In x log' -> In x log \/ reach a x) /\
    (forall x, In x (map fst c') -> In x (map fst c) \/ In x log') /\ incl log log'.
  Proof.
    induction k as [|k IHk]; [intros; discriminate|]. induction a as [|d a IHa]; intros c st log log' c' st' H Cl M G.
    - rewrite load_nil in H. injection H as <- <- <-. split; [intros x I; destruct (imports_nil _ I)|]. split; [constructor; intros x b I; destruct (imports_nil _ I)|].
      split; [exact M|]. split; [exact G|]. split; [apply incl_refl|]. split; [intros i f E; exists f; split; [exact E|apply same_refl]|]. split; [auto|]. split; [auto|]. split; [auto|]. apply incl_refl.
    - assert (Cla : forall x b, reach a x -> file x b -> Forall clean_decl b) by (intros x b R; apply Cl, reach_tail, R).
      rewrite load_cons in H. destruct d as [? ? ?|items from|? ?|? ? ?].
      2:{ destruct (r_norm rs from) as [x| | |] eqn:Ex; cbn [bindl] in H; try discriminate H.
        assert (Im : imports (DImport items from :: a) x) by (exists items, from; split; [left; reflexivity|exact Ex]).
        assert (Split : forall y, imports (DImport items from :: a) y -> y = x \/ imports a y).
        { intros y (i & f & [I|I] & E); [left; injection I as <- <-; congruence|right; exists i, f; auto]. }
        destruct (mget x c) as [q0|] eqn:Mx.
        - destruct (IHa _ _ _ _ _ _ H Cla M G) as (A1 & A2 & A3 & A4 & A5 & A6 & A7 & A8 & A9 & A10).
          assert (Kx : In x (map fst c)) by (apply in_map_iff; exists (x, q0); split; [reflexivity|apply mget_in; exact Mx]).
          split; [intros y I; destruct (Split y I) as [->|I']; auto|]. split; [|split; [exact A3|]; split; [exact A4|]; split; [exact A5|]; split; [exact A6|]; split; [|split; [|split; [exact A9|exact A10]]]].
          + constructor. intros y b I F. destruct (Split y I) as [->|I']; [eapply G; eassumption|]. inversion A2; eauto.
          + intros y Hy. destruct (A7 y Hy); [left; assumption|right; apply reach_tail; assumption].
          + intros y Hy. destruct (A8 y Hy); [left; assumption|right; apply reach_tail; assumption].
        - destruct (r_load rs x) as [[text|]| | |] eqn:El; cbn [bindl] in H; try discriminate H. destruct (parse text) as [b| | |] eqn:Ep; cbn [parsed bindl] in H; try discriminate H.
          assert (Fx : file x b) by (exists text; auto). destruct (load k b c st (log ++ [x])) as [log1 [[c1 st1]| | |]] eqn:E1; cbn [bindl] in H; try discriminate H.
          destruct (imported b c1 st1) as [q| | |] eqn:Eq; cbn [bindl] in H; try discriminate H.
          assert (Clb : forall y b', reach b y -> file y b' -> Forall clean_decl b') by (intros y b' R; apply Cl; eapply reach_through; eassumption).
          destruct (IHk _ _ _ _ _ _ _ E1 Clb M G) as (A1 & A2 & A3 & A4 & A5 & A6 & A7 & A8 & A9 & A10).
          assert (Keep : forall i f, nth_error st1 i = Some f -> exists f', nth_error (p_store q) i = Some f' /\ same f f').
          { apply program_elab in Eq as (_ & _ & _ & _ & _ & K); [exact K|]. eapply Cl; [apply reach_direct, Im|exact Fx]. }
          assert (Keys : forall y, In y (map fst (mput x q c1)) <-> y = x \/ In y (map fst c1)).
          { intros y. rewrite mput_keys. destruct (existsb _ _) eqn:Ee; [|rewrite in_app_iff; cbn; intuition congruence].
            apply existsb_exists in Ee as (z & Hz & E). apply name_eqb_eq in E as ->. split; [auto|]. intros [->|K]; assumption. }
          destruct (IHa _ _ _ _ _ _ H Cla) as (B1 & B2 & B3 & B4 & B5 & B6 & B7 & B8 & B9 & B10).
          { intros y q' E. destruct (name_eqb y x) eqn:Ne.
            - apply name_eqb_eq in Ne as ->. rewrite mget_put_same in E. injection E as <-. split; [eapply Meaning; [exact Fx|exact A1| |exact Eq]; intros y q' Hy; apply A3; exact Hy|].
              intros i f E. exists f. split; [exact E|apply same_refl].
            - apply name_eqb_neq in Ne. rewrite mget_put_other in E by exact Ne. destruct (A3 _ _ E) as [K1 K2]. split; [exact K1|]. intros i f Ef. destruct (K2 _ _ Ef) as (f' & Ef' & S1). destruct (Keep _ _ Ef') as (f'' & Ef'' & S2).
              exists f''. split; [exact Ef''|eapply same_trans; eassumption]. }
          { intros y b' Hy F. apply Keys in Hy as [->|Hy]; [rewrite (file_fun _ _ _ F Fx); exact A2|]. eapply A4; eassumption. }
          assert (Kx : In x (map fst c')) by (apply B5, Keys; left; reflexivity).
          split; [intros y I; destruct (Split y I) as [->|I']; auto|]. split; [|split; [exact B3|]; split; [exact B4|]; split; [|split; [|split; [|split; [|split]]]]].
          + constructor. intros y b' I F. destruct (Split y I) as [->|I']; [rewrite (file_fun _ _ _ F Fx); exact A2|]. inversion B2; eauto.
          + intros y Hy. apply B5, Keys. right. apply A5. exact Hy.
          + intros i f E. destruct (A6 _ _ E) as (f1 & E1' & S1). destruct (Keep _ _ E1') as (f2 & E2 & S2). destruct (B6 _ _ E2) as (f3 & E3 & S3). exists f3. split; [exact E3|]. eapply same_trans; [exact S1|]. eapply same_trans; eassumption.
          + intros y Hy. destruct (B7 y Hy) as [K|K]; [|right; apply reach_tail, K]. apply Keys in K as [->|K]; [right; apply reach_direct, Im|]. destruct (A7 y K) as [K'|K']; [left; exact K'|right; eapply reach_through; eassumption].
          + intros y Hy. destruct (B8 y Hy) as [K|K]; [|right; apply reach_tail, K]. destruct (A8 y K) as [K'|K']; [|right; eapply reach_through; eassumption]. apply in_app_or in K' as [K'|[->|[]]]; [left; exact K'|right; apply reach_direct, Im].
          + intros y Hy. destruct (B9 y Hy) as [K|K]; [|right; exact K]. apply Keys in K as [->|K]; [right; apply B10, A10, in_or_app; right; left; reflexivity|]. destruct (A9 y K) as [K'|K']; [left; exact K'|right; apply B10; exact K'].
          + intros y Hy. apply B10, A10, in_or_app. left. exact Hy. }
      all: destruct (IHa _ _ _ _ _ _ H Cla M G) as (A1 & A2 & A3 & A4 & A5 & A6 & A7 & A8 & A9 & A10);
        (split; [|split; [|split; [exact A3|]; split; [exact A4|]; split; [exact A5|]; split; [exact A6|]; split; [intros y Hy; destruct (A7 y Hy); [left; assumption|right; apply reach_tail; assumption]|split; [|split; [exact A9|exact A10]]]]]).
      all: try (constructor; intros y b (i0 & f0 & [I|I] & E) F; [discriminate I|]; inversion A2 as [? K]; subst; eapply K; [exists i0, f0; split; eassumption|exact F]).
      all: try (intros y (i0 & f0 & [I|I] & E); [discriminate I|]; apply A1; exists i0, f0; auto).
      all: intros y Hy; destruct (A8 y Hy); [left; assumption|right; apply reach_tail; assumption].
  Qed.

  Lemma ok_grounded : forall k a c st log log' c' st', load k a c st log = (log', Ok (c', st')) -> (forall x b, In x (map fst c) -> file x b -> grounded b) ->
    grounded a /\ (forall x b, In x (map fst c') -> file x b -> grounded b).
  Proof.
    induction k as [|k IHk]; [intros; discriminate|]. induction a as [|d a IHa]; intros c st log log' c' st' H G.
    - rewrite load_nil in H. injection H as <- <- <-. split; [|exact G]. constructor. intros x b I. destruct (imports_nil _ I).
    - rewrite load_cons in H. destruct d as [? ? ?|items from|? ?|? ? ?].
      2:{ destruct (r_norm rs from) as [x| | |] eqn:Ex; cbn [bindl] in H; try discriminate H.
        assert (Split : forall y, imports (DImport items from :: a) y -> y = x \/ imports a y).
        { intros y (i & f & [I|I] & E); [left; injection I as <- <-; congruence|right; exists i, f; auto]. }
        destruct (mget x c) as [q0|] eqn:Mx.
        - destruct (IHa _ _ _ _ _ _ H G) as (A1 & A2). split; [|exact A2]. constructor. intros y b I F. destruct (Split y I) as [->|I']; [|inversion A1; eauto].
          eapply G; [|exact F]. apply in_map_iff. exists (x, q0). split; [reflexivity|apply mget_in; exact Mx].
        - destruct (r_load rs x) as [[text|]| | |] eqn:El; cbn [bindl] in H; try discriminate H. destruct (parse text) as [b| | |] eqn:Ep; cbn [parsed bindl] in H; try discriminate H.
          assert (Fx : file x b) by (exists text; auto). destruct (load k b c st (log ++ [x])) as [log1 [[c1 st1]| | |]] eqn:E1; cbn [bindl] in H; try discriminate H.
          destruct (imported b c1 st1) as [q| | |] eqn:Eq; cbn [bindl] in H; try discriminate H.
          destruct (IHk _ _ _ _ _ _ _ E1 G) as (A1 & A2). destruct (IHa _ _ _ _ _ _ H) as (B1 & B2).
          { intros y b' Hy F. rewrite mput_keys in Hy. assert (K : y = x \/ In y (map fst c1)) by (destruct (existsb _ _); [auto|apply in_app_or in Hy as [Hy|[->|[]]]; auto]).
            destruct K as [->|K]; [rewrite (file_fun _ _ _ F Fx); exact A1|eapply A2; eassumption]. }
          split; [|exact B2]. constructor. intros y b' I F. destruct (Split y I) as [->|I']; [rewrite (file_fun _ _ _ F Fx); exact A1|]. inversion B1; eauto. }
      all: destruct (IHa _ _ _ _ _ _ H G) as (A1 & A2); (split; [|exact A2]); constructor; intros y b (i0 & f0 & [I|I] & E) F; [discriminate I|]; inversion A1 as [? K]; subst;
        (eapply K; [exists i0, f0; split; eassumption|exact F]).
  Qed.

  Definition closed_cache (c : cache) : Prop := forall x b y, In x (map fst c) -> file x b -> imports b y -> In y (map fst c).
  Lemma keys_put x (q : prog) c y : In y (map fst (mput x q c)) <-> y = x \/ In y (map fst c).
  Proof.
    rewrite mput_keys. destruct (existsb _ _) eqn:Ee; [|rewrite in_app_iff; cbn; intuition congruence].
    apply existsb_exists in Ee as (z & Hz & E). apply name_eqb_eq in E as ->. split; [auto|]. intros [->|K]; assumption.
  Qed.
  Lemma ok_closed : forall k a c st log log' c' st', load k a c st log = (log', Ok (c', st')) -> closed_cache c ->
    closed_cache c' /\ incl (map fst c) (map fst c') /\ (forall x, imports a x -> In x (map fst c')) /\ (forall x, In x log' -> In x log \/ reach a x) /\
    (forall x, In x (map fst c') -> In x (map fst c) \/ In x log') /\ incl log log'.
  Proof.
    induction k as [|k IHk]; [intros; discriminate|]. induction a as [|d a IHa]; intros c st log log' c' st' H G.
    - rewrite load_nil in H. injection H as <- <- <-. repeat (split; [first [exact G|apply incl_refl|tauto|intros x I; destruct (imports_nil _ I)]|]). apply incl_refl.
    - rewrite load_cons in H. destruct d as [? ? ?|items from|? ?|? ? ?].
      2:{ destruct (r_norm rs from) as [x| | |] eqn:Ex; cbn [bindl] in H; try discriminate H.
        assert (Im : imports (DImport items from :: a) x) by (exists items, from; split; [left; reflexivity|exact Ex]).
        assert (Split : forall y, imports (DImport items from :: a) y -> y = x \/ imports a y).
        { intros y (i & f & [I|I] & E); [left; injection I as <- <-; congruence|right; exists i, f; auto]. }
        destruct (mget x c) as [q0|] eqn:Mx.
        - destruct (IHa _ _ _ _ _ _ H G) as (A1 & A2 & A3 & A4 & A5 & A6). split; [exact A1|]. split; [exact A2|]. split; [|split; [|split; [exact A5|exact A6]]].
          + intros y I. destruct (Split y I) as [->|I']; [|auto]. apply A2, in_map_iff. exists (x, q0). split; [reflexivity|apply mget_in; exact Mx].
          + intros y Hy. destruct (A4 y Hy); [left; assumption|right; apply reach_tail; assumption].
        - destruct (r_load rs x) as [[text|]| | |] eqn:El; cbn [bindl] in H; try discriminate H. destruct (parse text) as [b| | |] eqn:Ep; cbn [parsed bindl] in H; try discriminate H.
          assert (Fx : file x b) by (exists text; auto). destruct (load k b c st (log ++ [x])) as [log1 [[c1 st1]| | |]] eqn:E1; cbn [bindl] in H; try discriminate H.
          destruct (imported b c1 st1) as [q| | |] eqn:Eq; cbn [bindl] in H; try discriminate H.
          destruct (IHk _ _ _ _ _ _ _ E1 G) as (A1 & A2 & A3 & A4 & A5 & A6). destruct (IHa _ _ _ _ _ _ H) as (B1 & B2 & B3 & B4 & B5 & B6).
          { intros y b' z Hy F I. apply keys_put. right. apply keys_put in Hy as [->|Hy]; [rewrite (file_fun _ _ _ F Fx) in I; apply A3, I|eapply A1; eassumption]. }
          split; [exact B1|]. split; [intros y Hy; apply B2, keys_put; right; apply A2, Hy|]. split; [|split; [|split]].
          + intros y I. destruct (Split y I) as [->|I']; [|auto]. apply B2, keys_put. left. reflexivity.
          + intros y Hy. destruct (B4 y Hy) as [K|K]; [|right; apply reach_tail, K]. destruct (A4 y K) as [K'|K']; [|right; eapply reach_through; eassumption]. apply in_app_or in K' as [K'|[->|[]]]; [left; exact K'|right; apply reach_direct, Im].
          + intros y Hy. destruct (B5 y Hy) as [K|K]; [|right; exact K]. apply keys_put in K as [->|K]; [right; apply B6, A6, in_or_app; right; left; reflexivity|]. destruct (A5 y K) as [K'|K']; [left; exact K'|right; apply B6; exact K'].
          + intros y Hy. apply B6, A6, in_or_app. left. exact Hy. }
      all: destruct (IHa _ _ _ _ _ _ H G) as (A1 & A2 & A3 & A4 & A5 & A6); (split; [exact A1|]); (split; [exact A2|]); (split; [|split; [|split; [exact A5|exact A6]]]).
      all: try (intros y (i0 & f0 & [I|I] & E); [discriminate I|]; apply A3; exists i0, f0; auto).
      all: intros y Hy; destruct (A4 y Hy); [left; assumption|right; apply reach_tail; assumption].
  Qed.
End Facts.

(** C29. If no chain of imports is infinite, nesting depth is never what stops the loading: from some depth [K] on the outcome (and the files
    loaded) no longer depend on the depth allowed, and the loading itself terminates unless the resolver or the analysis of one file does not.
    [stuck]: one of these fails to terminate. *)
Theorem C29_terminates_partial : forall en n rs a, grounded rs a -> exists K, forall k, (K <= k)%nat -> load en n rs k a [] [] [] = load en n rs K a [] [] [] /\
  (snd (load en n rs k a [] [] []) = Hang ->
    (exists from, r_norm rs from = Hang) \/ (exists x, reach rs a x /\ r_load rs x = Hang) \/ (exists x b c st, reach rs a x /\ file rs x b /\ from_ast_imported en n rs b c st = Hang)).
Proof.
  intros en n rs a G. destruct (settles_exists en n rs a G) as [K [A B]]. exists K. intros k L. split; [apply A; exact L|]. rewrite A by exact L. apply B.
Qed.
Print Assumptions C29_terminates_partial.

(** C29. Without cyclic imports no file is ever loaded twice, whether loading succeeds or not. *)
Theorem C29_loaded_once_partial : forall en n rs k a, acyclic rs a -> NoDup (fst (load en n rs k a [] [] [])).
Proof. intros en n rs k a A. apply (once en n rs k a [] [] [] []); [intros y []|constructor|intros y []|exact A]. Qed.
Print Assumptions C29_loaded_once_partial.

(** C29. Successful loading loads exactly the files imported directly or through others. *)
Lemma exactly en n rs k a log c st : load en n rs k a [] [] [] = (log, Ok (c, st)) -> forall x, In x log <-> reach rs a x.
Proof.
  intros H x. assert (C0 : closed_cache rs []) by (intros ? ? ? []). destruct (ok_closed en n rs k a [] [] [] log c st H C0) as (A1 & _ & A3 & A4 & A5 & _).
  split; [intros Hx; destruct (A4 x Hx) as [[]|K]; exact K|]. intros R. enough (K : In x (map fst c)) by (destruct (A5 x K) as [[]|K']; exact K').
  enough (Gen : forall b y, reach rs b y -> (forall z, imports rs b z -> In z (map fst c)) -> In y (map fst c)) by (eapply Gen; eassumption).
  intros b y Ry. induction Ry as [b y I|b z b' y I F Ry IH]; intros Hi; [apply Hi, I|]. apply IH. intros w Iw. exact (A1 z b' w (Hi z I) F Iw).
Qed.
Theorem C29_loads_exactly : forall en n rs k a log c st, load en n rs k a [] [] [] = (log, Ok (c, st)) -> forall x, In x log <-> reach rs a x.
Proof. exact exactly. Qed.
Print Assumptions C29_loads_exactly.

(** C29. Each imported item denotes, under its own name or the alias, the definition of that name in the imported file: the same type (with the
    same contents), constant or transform.  The imported file [b] was itself analysed to [q], so C28 and C43 describe [q].  Partial: names imported
    twice are excluded (C28_import_overwrites_refuted), as are fields named like padding (C43_pad_collision_refuted); functions cannot be imported. *)
Definition imported_as (q p : prog) (b : name * option name) : Prop :=
  let x := fst b in let y := match snd b with Some y => y | None => x end in
  (exists i, mget x (p_types q) = Some i /\ mget y (p_types p) = Some i /\ forall f, fget q i = Some f -> exists f', fget p i = Some f' /\ same f f') \/
  (exists c, mget x (p_types q) = None /\ mget x (p_consts q) = Some c /\ mget y (p_consts p) = Some c) \/
  (exists g, mget x (p_types q) = None /\ mget x (p_consts q) = None /\ mget x (p_xforms q) = Some g /\ mget y (p_xforms p) = Some g).
Lemma items en n rs k a p : from_ast en n rs k a = Ok p -> Forall clean_decl a -> (forall x b, reach rs a x -> file rs x b -> Forall clean_decl b) -> NoDup (import_names a) ->
  forall its from, In (DImport its from) a -> exists x b c st q, r_norm rs from = Ok x /\ file rs x b /\ from_ast_imported en n rs b c st = Ok q /\ Forall (declared n q) b /\ Forall (imported_as q p) its.
Proof.
  unfold from_ast. intros H Ca Cl N its from I. destruct (load en n rs k a [] [] []) as [log [[c st]| | |]] eqn:L; cbn [snd bind] in H; try discriminate H.
  assert (M0 : forall x q, mget x [] = Some q -> meaning en n rs x q /\ kept q []) by (intros ? ?; discriminate). assert (G0 : forall x b, In x (map fst (@nil (name * prog))) -> file rs x b -> grounded rs b) by (intros ? ? []).
  destruct (loaded en n rs k a [] [] [] log c st L Cl M0 G0) as (_ & _ & M & _ & _ & _ & R & _).
  destruct (program_elab en n rs a c st p H Ca) as (_ & _ & _ & _ & D & Kp). specialize (D N). rewrite Forall_forall in D. specialize (D _ I). cbn [import_done] in D.
  destruct D as (x & q & Ex & Eq & Fi). destruct (M x q Eq) as [Mx Kq]. inversion Mx as [? b c0 st0 ? Fx _ _ Ei]; subst. exists x, b, c0, st0, q. repeat (split; [assumption|]). split.
  - assert (Rx : reach rs a x) by (apply reach_direct; exists its, from; auto). destruct (program_elab en n rs b c0 st0 q Ei (Cl _ _ Rx Fx)) as (_ & _ & K & _). exact K.
  - rewrite Forall_forall in *. intros [y al] Hy. specialize (Fi _ Hy). destruct Fi as [(i & E1 & E2)|[(c1 & E1 & E2 & E3)|(g & E1 & E2 & E3 & E4)]].
    + left. exists i. split; [exact E1|]. split; [exact E2|]. intros f Ef. destruct (Kq _ _ Ef) as (f1 & Ef1 & S1). destruct (Kp _ _ Ef1) as (f2 & Ef2 & S2). exists f2. split; [exact Ef2|eapply same_trans; eassumption].
    + right. left. exists c1. auto.
    + right. right. exists g. auto.
Qed.
Theorem C29_items_partial : forall en n rs k a p, from_ast en n rs k a = Ok p -> Forall clean_decl a -> (forall x b, reach rs a x -> file rs x b -> Forall clean_decl b) -> NoDup (import_names a) ->
  forall its from, In (DImport its from) a -> exists x b c st q, r_norm rs from = Ok x /\ file rs x b /\ from_ast_imported en n rs b c st = Ok q /\ Forall (declared n q) b /\ Forall (imported_as q p) its.
Proof. exact items. Qed.
Print Assumptions C29_items_partial.

(** C29. A program with cyclic imports is never accepted, at any nesting depth. *)
Lemma cyclic_rejected en n rs k a p : ~ acyclic rs a -> from_ast en n rs k a <> Ok p.
Proof.
  unfold from_ast. intros A H. destruct (load en n rs k a [] [] []) as [log [[c st]| | |]] eqn:L; cbn [snd bind] in H; try discriminate H.
  apply A, grounded_acyclic. refine (proj1 (ok_grounded en n rs k a [] [] [] log c st L _)). intros x b [].
Qed.
Theorem C29_cyclic_rejected : forall en n rs k a p, ~ acyclic rs a -> from_ast en n rs k a <> Ok p.
Proof. exact cyclic_rejected. Qed.
Print Assumptions C29_cyclic_rejected.

(** C29. But no error is reported: a file that imports itself is loaded again at every level, so the recursion ends only with the stack. *)
Definition loop_text : list Z := bs "import t from ""a""; type t = u8;".
Definition loop_files : resolver := {| r_prelude := []; r_type := fun _ => Ok None; r_xform := fun _ => Ok None; r_func := fun _ => Ok None; r_norm := fun x => Ok x;
  r_load := fun _ => Ok (Some loop_text) |}.
Definition loop_ast : aprogram := Eval vm_compute in match parse loop_text with Ok a => a | _ => [] end.
Lemma loop_parse : parse loop_text = Ok loop_ast. Proof. vm_compute. reflexivity. Qed.
Lemma loop_split : exists items d, loop_ast = [DImport items (bs "a"); d]. Proof. eexists _, _. vm_compute. reflexivity. Qed.
Lemma looping en n : forall k c st log, mget (bs "a") c = None -> load en n loop_files k loop_ast c st log = (log ++ repeat (bs "a") k, Hang).
Proof.
  induction k as [|k IH]; intros c st log E; [rewrite load_O; cbn [repeat]; rewrite app_nil_r; reflexivity|]. destruct loop_split as (its & d & Sp). rewrite Sp at 1. rewrite load_cons.
  change (r_norm loop_files (bs "a")) with (Ok (bs "a") : R name). cbn [bindl]. rewrite E. change (r_load loop_files (bs "a")) with (Ok (Some loop_text) : R (option (list Z))). cbn [bindl].
  rewrite loop_parse. cbn [parsed bindl]. rewrite (IH _ _ _ E). cbn [bindl repeat]. rewrite <- app_assoc. reflexivity.
Qed.
Theorem C29_cyclic_import_refuted : forall en n k, load en n loop_files k loop_ast [] [] [] = (repeat (bs "a") k, Hang) /\ from_ast en n loop_files k loop_ast = Hang.
Proof. intros en n k. unfold from_ast. rewrite looping by reflexivity. split; reflexivity. Qed.
Print Assumptions C29_cyclic_import_refuted.

(** A diamond: the main program imports b and c, both import d; d is loaded once, before the analysis of c, and the names arrive. *)
Definition diamond : resolver := {| r_prelude := []; r_type := fun _ => Ok None; r_xform := fun _ => Ok None; r_func := fun _ => Ok None; r_norm := fun x => Ok x;
  r_load := fun x => Ok (if name_eqb x (bs "b") then Some (bs "import d from ""d""; type b = d;") else if name_eqb x (bs "c") then Some (bs "import d from ""d""; type c = d[4u64];") else
    if name_eqb x (bs "d") then Some (bs "type d = u16;") else None) |}.
Definition diamond_ast : aprogram := Eval vm_compute in match parse (bs "import b as x from ""b""; import c from ""c""; type m = container { p: x, q: c };") with Ok a => a | _ => [] end.
Lemma diamond_grounded : grounded diamond diamond_ast.
Proof.
  assert (Leaf : forall a, (forall i f, ~ In (DImport i f) a) -> grounded diamond a) by (intros a H; constructor; intros x b (i & f & I & _); destruct (H _ _ I)).
  assert (D : forall b, file diamond (bs "d") b -> grounded diamond b).
  { intros b (t & E & P). vm_compute in E. injection E as <-. vm_compute in P. injection P as <-. apply Leaf. intros i f [I|[]]. discriminate I. }
  constructor. intros x b (i & f & I & N) (t & E & P). destruct I as [I|[I|[I|[]]]]; try discriminate I; injection I as <- <-; injection N as <-; vm_compute in E; injection E as <-; vm_compute in P; injection P as <-;
    constructor; intros y b (i & f & I & N) F; (destruct I as [I|[I|[]]]; [|discriminate I]); injection I as <- <-; injection N as <-; apply D; exact F.
Qed.
Example C29_nonvacuous : grounded diamond diamond_ast /\ acyclic diamond diamond_ast /\ run_ok (from_ast string_env 20 diamond 3 diamond_ast) = true /\
  fst (load string_env 20 diamond 3 diamond_ast [] [] []) = [bs "b"; bs "d"; bs "c"] /\ Forall clean_decl diamond_ast /\ NoDup (import_names diamond_ast).
Proof.
  split; [exact diamond_grounded|]. split; [apply grounded_acyclic, diamond_grounded|]. split; [vm_compute; reflexivity|]. split; [vm_compute; reflexivity|]. split.
  - unfold diamond_ast. repeat constructor; cbn; apply not_pad; cbn; discriminate.
  - cbn. repeat constructor; cbn; intuition discriminate.
Qed.
