(** Reading a typed program back as source (C28, C44): what remains of a declaration after analysis, written in the source language.  Two things are not read
    back: conversions (explicit casts and those the analysis inserts), and the way a number was spelled. *)
From Verif Require Import Base Scalar ConstInt ConstIntFacts Tokens Ast Parse Front Program FrontFacts ElabSpec ElabFacts ElabTypes ElabProgram.
From Coq Require Import Lia.
Open Scope string_scope. Open Scope Z_scope. Open Scope list_scope.

(** ** Source, without conversions and spelling *)

(** The number a literal denotes (decimal, or hexadecimal after 0x), whatever its type. *)
Fixpoint lit_digits (neg : bool) (radix acc : Z) (l : list Z) : Z :=
  match l with
  | [] => acc
  | c :: l => match digit_of radix c with Some d => lit_digits neg radix (if neg then acc * radix - d else acc * radix + d) l | None => 0 end
  end.
Definition lit_radix (radix : Z) (l : list Z) : Z :=
  match l with
  | [] => 0
  | c :: r => if c =? 43 then lit_digits false radix 0 r else if c =? 45 then lit_digits true radix 0 r else lit_digits false radix 0 l
  end.
Definition lit_value (l : list Z) : Z :=
  match l with
  | c0 :: c1 :: r => if (c0 =? 48) && (c1 =? 120) then lit_radix 16 r else lit_radix 10 l
  | _ => lit_radix 10 l
  end.
Definition number (z : Z) : aexpr := AInt (dec_string z) None.

Definition omap {A B} (f : A -> B) (o : option A) : option B := match o with Some a => Some (f a) | None => None end.
Fixpoint plain (e : aexpr) : aexpr :=
  match e with
  | AInt v _ => number (lit_value v)
  | ACast e _ => plain e
  | ACall f args => ACall f (map plain args)
  | AIndex a i => AIndex (plain a) (plain i)
  | AMember e m => AMember (plain e) m
  | AUn o e => AUn o (plain e)
  | ABin o a b => ABin o (plain a) (plain b)
  | ATern c a b => ATern (plain c) (plain a) (plain b)
  | e => e
  end.
(** Items without value: the last one with a value plus (flags: shifted by) the distance to it. *)
Fixpoint plain_enum (last : option name) (k : nat) (l : list (name * aenum)) : list (name * aenum) :=
  match l with
  | [] => []
  | (x, VDefault) :: l => (x, VDefault) :: plain_enum last k l
  | (x, VExpr e) :: l => (x, VExpr (plain e)) :: plain_enum (Some x) 1 l
  | (x, VNone) :: l =>
      (x, match last with Some lx => VExpr (ABin BAdd (ARef lx) (plain (number (Z.of_nat k)))) | None => VNone end) :: plain_enum last (S k) l
  end.
Fixpoint plain_bits (last : option name) (k : nat) (l : list (name * option aexpr)) : list (name * option aexpr) :=
  match l with
  | [] => []
  | (x, Some e) :: l => (x, Some (plain e)) :: plain_bits (Some x) 1 l
  | (x, None) :: l => (x, match last with Some lx => Some (ABin BShl (ARef lx) (plain (number (Z.of_nat k)))) | None => None end) :: plain_bits last (S k) l
  end.
Definition plain_x (x : axform) : axform := match x with AXform g args c => AXform g (map plain args) (omap plain c) end.
Fixpoint plain_type (t : atype) : atype :=
  match t with
  | YRef x args => YRef x (map plain args)
  | YEnum rep items => YEnum rep (plain_enum None 0 items)
  | YBits rep items => YBits rep (plain_bits None 0 items)
  | YCont len flags items => YCont (omap plain len) (match flags with [] => [] | _ => [bs "tagged_enum"] end) (map plain_item items)
  | YArr t ex len => YArr (plain_type t) ex (omap plain len)
  | t => t
  end
with plain_item (i : aitem) : aitem := match i with IPad e => IPad (plain e) | IField x f => IField x (plain_field f) end
with plain_field (f : afield) : afield :=
  match f with AField t calc flags cond xs => AField (plain_type t) (omap plain calc) flags (omap plain cond) (map plain_x xs) end.
Definition plain_arg (a : targ) : targ := {| ta_name := ta_name a; ta_type := plain_type (ta_type a); ta_default := omap plain (ta_default a) |}.

(** How deep types nest. *)
Fixpoint depth (t : atype) : nat :=
  match t with
  | YCont _ _ items => S (fold_right (fun i d => Nat.max (match i with IPad _ => 1%nat | IField _ (AField t _ _ _ _) => depth t end) d) 1%nat items)
  | YArr t _ _ => S (depth t)
  | _ => 1
  end.

(** ** Typed programs, read back *)
Section Read.
  Variable p : prog.
  Definition fname (i : nat) : name := match fget p i with Some f => f_name f | None => [] end.
  Fixpoint read (e : fexpr) : aexpr :=
    match e with
    | FBin o l r => ABin o (read l) (read r)
    | FUn o e => AUn o (read e)
    | FCast e _ => read e
    | FIndex a i => AIndex (read a) (read i)
    | FAccess i v _ => AEnumAccess (fname i) v
    | FInt c => number (ci_val c)
    | FConst x _ _ => ARef x
    | FInput x _ => ARef x
    | FField i => ARef (fname i)
    | FStr s => AStr s
    | FTern c a b => ATern (read c) (read a) (read b)
    | FBoolean b => ABool b
    | FCall g args => ACall g (map read args)
    | FMember e m _ => AMember (read e) m
    end.
  Definition read_x (u : xuse) : axform := AXform (xu_name u) (map read (xu_args u)) (omap read (xu_cond u)).
  Fixpoint read_type (m : nat) (t : fty) {struct m} : atype :=
    match m with
    | O => YBool
    | S m =>
        match t with
        | FScalar s => YScalar s
        | FF32 => YF32
        | FF64 => YF64
        | FBool => YBool
        | FEnum _ rep items => YEnum rep (map (fun i => (fst i, match snd i with Some e => VExpr (read e) | None => VDefault end)) items)
        | FBits _ rep items => YBits rep (map (fun i => (fst i, Some (read (snd i)))) items)
        | FForeign x => YRef x []
        | FRef i args => YRef (fname i) (map read args)
        | FArr el ex len => YArr (read_type m el) ex (omap read len)
        | FCont len its tagged => YCont (omap read len) (if tagged then [bs "tagged_enum"] else [])
            (map (fun i => match fget p (snd i) with
                           | Some fd => if f_pad fd then match f_type fd with FArr _ _ (Some e) => IPad (read e) | _ => IPad (number 0) end else IField (fst i) (AField (read_type m (f_type fd)) (omap read (f_calc fd)) [] (omap read (f_cond fd)) (map read_x (f_xs fd)))
                           | None => IPad (number 0)
                           end) its)
        end
    end.
  Definition read_field (m : nat) (fd : field) : afield := AField (read_type m (f_type fd)) (omap read (f_calc fd)) [] (omap read (f_cond fd)) (map read_x (f_xs fd)).
  Definition read_param (m : nat) (q : param) : targ := {| ta_name := pm_name q; ta_type := read_type m (pm_type q); ta_default := omap read (pm_default q) |}.
  (** A type declaration, by name. *)
  Definition read_decl (m : nat) (x : name) : option adecl :=
    match mget x (p_types p) with
    | Some i => match fget p i with Some fd => Some (DType (f_name fd) (map (read_param m) (f_params fd)) (read_field m fd)) | None => None end
    | None => None
    end.
End Read.

(** ** The two agree *)
Lemma digits_value s neg r : forall l acc z, digits_loop s neg r acc l = Some z -> lit_digits neg r acc l = z.
Proof.
  induction l as [|c l IH]; intros acc z H; cbn [digits_loop lit_digits] in *; [congruence|]. destruct (digit_of r c) as [d|]; [|discriminate]. destruct (in_range s (acc * r)); [|discriminate].
  destruct (in_range s (if neg then acc * r - d else acc * r + d)); [|discriminate]. apply IH, H.
Qed.
Lemma radix_value s r l z : from_str_radix s r l = Some z -> lit_radix r l = z.
Proof.
  unfold from_str_radix, lit_radix. destruct l as [|c l]; [discriminate|]. destruct l as [|c1 l].
  - destruct (c =? 43) eqn:E1; [discriminate|]. destruct (c =? 45) eqn:E2; [discriminate|]. cbn [orb]. apply digits_value.
  - destruct (c =? 43); [apply digits_value|]. destruct (c =? 45) eqn:E2; cbn [andb]; [|apply digits_value]. destruct (is_signed s); [apply digits_value|].
    apply Z.eqb_eq in E2. subst c. cbn [digits_loop]. assert (Q : digit_of r 45 = None) by reflexivity. rewrite Q. discriminate.
Qed.
Lemma parse_value s l c : ci_parse s l = Some c -> lit_value l = ci_val c.
Proof.
  unfold ci_parse, lit_value. destruct l as [|c0 [|c1 l]].
  - discriminate.
  - destruct (from_str_radix s 10 [c0]) as [v|] eqn:E; [|discriminate]. injection 1 as <-. eapply radix_value, E.
  - destruct ((c0 =? 48) && (c1 =? 120)).
    + destruct (from_str_radix s 16 l) as [v|] eqn:E; [|discriminate]. injection 1 as <-. eapply radix_value, E.
    + destruct (from_str_radix s 10 (c0 :: c1 :: l)) as [v|] eqn:E; [|discriminate]. injection 1 as <-. eapply radix_value, E.
Qed.

(** No type or constant goes by a name that is not its own (as an import with "as" would give it). *)
Definition own_names (p : prog) : Prop :=
  (forall x i, mget x (p_types p) = Some i -> fname p i = x) /\ (forall x c, mget x (p_consts p) = Some c -> c_name c = x).

Section Agree.
  Variables (n : nat) (p : prog).
  Hypothesis Own : own_names p.
  Definition names_of (F : list (name * nat)) : Prop := forall x i, mget x F = Some i -> fname p i = x.

  Section Expr.
    Variables (F : list (name * nat)) (I : list (name * fty)).
    Hypothesis HF : names_of F.
    Fixpoint read_mirror (e' : fexpr) {struct e'} : forall e, mirror n p F I e e' -> read p e' = plain e.
    Proof.
      destruct e' as [o l r|o e1|e1 t|a i|i v c|c|y t v|y t|i|s|c a b|b|g args|e1 m0 c]; intros e M; cbn [read].
      - inversion M; subst. cbn [plain]. f_equal; eapply read_mirror; eassumption.
      - inversion M; subst. cbn [plain]. f_equal; eapply read_mirror; eassumption.
      - inversion M; subst; cbn [plain]; eapply read_mirror; eassumption.
      - inversion M; subst. cbn [plain]. f_equal; eapply read_mirror; eassumption.
      - inversion M; subst. cbn [plain]. f_equal. apply Own. assumption.
      - inversion M; subst. cbn [plain]. f_equal. symmetry. eapply parse_value. eassumption.
      - inversion M; subst. cbn [plain]. f_equal. apply Own. assumption.
      - inversion M; subst. reflexivity.
      - inversion M; subst. cbn [plain]. f_equal. apply HF. assumption.
      - inversion M; subst. reflexivity.
      - inversion M; subst. cbn [plain]. f_equal; eapply read_mirror; eassumption.
      - inversion M; subst. reflexivity.
      - inversion M; subst. cbn [plain]. f_equal. match goal with H : Forall2 _ _ _ |- _ => rename H into Fa end. clear M.
        match goal with |- _ = map plain ?l => generalize dependent l end. induction args as [|y args IH]; intros es Fa; inversion Fa; subst; [reflexivity|]. cbn [map]. f_equal; [apply read_mirror; assumption|apply IH; assumption].
      - inversion M; subst. cbn [plain]. f_equal; eapply read_mirror; eassumption.
    Qed.
    Lemma read_mirrors es es' : Forall2 (mirror n p F I) es es' -> map (read p) es' = map plain es.
    Proof. induction 1 as [|e e' es es' H M IH]; [reflexivity|]. cbn [map]. f_equal; [apply read_mirror, H|exact IH]. Qed.
    Lemma read_opt e e' : opt_rel (mirror n p F I) e e' -> omap (read p) e' = omap plain e.
    Proof. destruct e, e'; cbn; try contradiction; intros H; [f_equal; apply read_mirror, H|reflexivity]. Qed.
    Lemma read_xs xs us : Forall2 (xform_rel n p F I) xs us -> map (read_x p) us = map plain_x xs.
    Proof.
      induction 1 as [|x u xs us H M IH]; [reflexivity|]. cbn [map]. f_equal; [|exact IH]. destruct x as [g args c]. destruct H as (A & B & C). unfold read_x, plain_x. rewrite (read_mirrors _ _ B), (read_opt _ _ C), A. reflexivity.
    Qed.
    Lemma read_inl : forall m t t', (depth t <= m)%nat -> minl n p F I t t' -> read_type p m t' = plain_type t.
    Proof.
      induction m as [|m IH]; intros t t' D M; [destruct t; cbn in D; lia|]. inversion M; subst; cbn [read_type plain_type]; try reflexivity.
      - f_equal; [apply Own; assumption|apply read_mirrors; assumption].
      - cbn [depth] in D. f_equal; [apply IH; [lia|assumption]|]. destruct len as [e|]; [destruct (H1 e eq_refl) as (e' & -> & Me); cbn; f_equal; apply read_mirror, Me|rewrite (H0 eq_refl); reflexivity].
    Qed.
    Lemma read_enum rep last k l l' : enum_items n p F I rep last k l l' ->
      map (fun i => (fst i, match snd i with Some e => VExpr (read p e) | None => VDefault end)) l' = plain_enum (omap fst last) k l.
    Proof.
      induction 1 as [last k|last k x|last k x e e' l l' M H IH|lx le k x c l l' M H IH]; cbn [map plain_enum fst snd omap] in *; try reflexivity.
      - rewrite IH, (read_mirror _ _ M). reflexivity.
      - rewrite IH. cbn [read plain number]. rewrite (parse_value _ _ _ M). reflexivity.
    Qed.
    Lemma read_bits rep last k l l' : bits_items n p F I rep last k l l' -> map (fun i => (fst i, Some (read p (snd i)))) l' = plain_bits (omap fst last) k l.
    Proof.
      induction 1 as [last k|last k x e e' l l' M H IH|lx le k x c l l' M H IH]; cbn [map plain_bits fst snd omap] in *; try reflexivity.
      - rewrite IH, (read_mirror _ _ M). reflexivity.
      - rewrite IH. cbn [read plain number]. rewrite (parse_value _ _ _ M). reflexivity.
    Qed.
  End Expr.

  Lemma names_app F G : names_of F -> names_of G -> names_of (F ++ G).
  Proof. intros A B x i H. rewrite mget_app in H. destruct (mget x F) as [j|] eqn:E; [injection H as <-; apply A, E|apply B, H]. Qed.
  (** The items' fields, as the calculations see them, bear their names. *)
  Lemma items_names_of F I all before k items its : items_elab n p F I all before k items its -> names_of (fields_of items its).
  Proof.
    induction 1 as [F I all before k|F I all before k y t calc cnd xs l i fd l' Hf Hn Hp Htop Hpad Ht Hc Hx Hcalc Hit IHit|F I all before k e l i fd ln l' Hf Hpad Ht Hcalc Hc Hx Hps Hn Hm Hit IHit]; cbn [fields_of].
    - intros x i H. discriminate H.
    - intros z j H. cbn [mget] in H. destruct (name_eqb z y) eqn:E; [|apply IHit, H]. apply name_eqb_eq in E as ->. injection H as <-. unfold fname. rewrite Hf. exact Hn.
    - exact IHit.
  Qed.
  Lemma read_elab : forall m F I top t t', (depth t <= m)%nat -> names_of F -> elab n p F I top t t' -> read_type p m t' = plain_type t.
  Proof.
    induction m as [|m IH]; intros F I top t t' D HF El; [destruct t; cbn in D; lia|]. inversion El; subst.
    - eapply read_inl; eassumption.
    - cbn [read_type plain_type]. f_equal. eapply (read_enum F I HF _ None); eassumption.
    - cbn [read_type plain_type]. f_equal. eapply (read_bits F I HF _ None); eassumption.
    - rename H into Hl, H1 into Ht, H4 into Hit. cbn [read_type plain_type]. f_equal.
      + apply (read_opt F I HF), Hl.
      + destruct tagged, flags; try reflexivity; [destruct (proj1 Ht eq_refl eq_refl)|discriminate (proj2 Ht ltac:(discriminate))].
      + cbn [depth] in D. apply le_S_n in D. assert (HA : names_of (fields_of items its ++ F)) by (apply names_app; [eapply items_names_of; exact Hit|exact HF]).
        clear El Hl Ht H0 H2 H3 len flags len' top. set (all := fields_of items its) in *. clearbody all.
        assert (HB : names_of ([] ++ F)) by exact HF. clear HF. revert HA HB. remember ([] : list (name * nat)) as before eqn:Eb. clear Eb. remember O as k eqn:Ek in Hit. clear Ek.
        induction Hit as [F I all before k|F I all before k y t calc cnd xs l i fd l' Hf Hn Hp Htop Hpad Ht Hc Hx Hcalc Hit IHit|F I all before k e l i fd ln l' Hf Hpad Ht Hcalc Hc Hx Hps Hn Hm Hit IHit];
          intros HA HB; cbn [map fold_right] in *; [reflexivity| |].
        * cbn [snd]. rewrite Hf, Hpad. f_equal.
          -- cbn [plain_item plain_field fst]. f_equal. f_equal; [eapply IH; [lia|exact HB|exact Ht]|exact (read_opt _ I HA _ _ Hcalc)|exact (read_opt _ I HB _ _ Hc)|exact (read_xs _ I HB _ _ Hx)].
          -- apply IHit; [lia|exact HA|]. intros z j H. cbn [mget app] in H. destruct (name_eqb z y) eqn:E; [|apply HB, H]. apply name_eqb_eq in E as ->. injection H as <-. unfold fname. rewrite Hf. exact Hn.
        * cbn [snd]. rewrite Hf, Hpad, Ht. f_equal; [cbn [plain_item]; f_equal; exact (read_mirror _ I HB _ _ Hm)|]. apply IHit; [lia|exact HA|exact HB].
  Qed.
  Lemma read_params m : forall I args ps, Forall (fun a => (depth (ta_type a) <= m)%nat) args -> params_elab n p I args ps -> map (read_param p m) ps = map plain_arg args.
  Proof.
    intros I args ps D H. induction H as [I|I x t d pm l l' Hn Ht Hd H IH]; [reflexivity|]. inversion D; subst. cbn [map]. f_equal; [|apply IH; assumption]. unfold read_param, plain_arg. cbn [ta_name ta_type ta_default].
    f_equal; [eapply read_elab; [eassumption| |eassumption]; intros ? ? Z; discriminate Z|eapply (read_opt []); [intros ? ? Z; discriminate Z|eassumption]].
  Qed.
  Lemma read_declared m x args f : (match f with AField t _ _ _ _ => (depth t <= m)%nat end) -> Forall (fun a => (depth (ta_type a) <= m)%nat) args -> type_elab n p x args f ->
    read_decl p m x = Some (DType x (map plain_arg args) (plain_field f)).
  Proof.
    destruct f as [t calc flags cnd xs]. intros D Da (i & fd & Ei & Ef & Hn & _ & _ & Hp & -> & Ht & Hc & Hx & Hk). unfold read_decl. rewrite Ei, Ef, Hn. f_equal.
    assert (E0 : names_of []) by (intros ? ? Z; discriminate Z).
    f_equal; [eapply read_params; eassumption|]. unfold read_field. cbn [plain_field]. f_equal; [eapply read_elab; eassumption|eapply read_opt; eassumption|eapply read_opt; eassumption|eapply read_xs; eassumption].
  Qed.
End Agree.

(** ** Programs without imports *)
Lemma mget_fst {A} x (m : list (name * A)) v : mget x m = Some v -> In x (map fst m).
Proof. intros H. destruct (in_dec (list_eq_dec Z.eq_dec) x (map fst m)) as [I|I]; [exact I|]. apply mget_none in I. congruence. Qed.
Lemma in_fst {A} x (m : list (name * A)) : In x (map fst m) -> exists v, mget x m = Some v.
Proof. intros H. destruct (mget x m) as [v|] eqn:E; [eauto|]. apply mget_none in E. contradiction. Qed.
Lemma in_type_names x a : In x (type_names a) -> exists args f, In (DType x args f) a.
Proof. induction a as [|[y args f|?|?|?] a IH]; cbn; [tauto| |intros H; destruct (IH H) as (ar & g & K); eauto ..]. intros [->|H]; [eauto|]. destruct (IH H) as (ar & g & K). eauto. Qed.
Lemma in_const_names x a : In x (const_names a) -> exists t v, In (DConst x t v) a.
Proof. induction a as [|[?|?|?|y t v] a IH]; cbn; [tauto|intros H; destruct (IH H) as (ar & g & K); eauto ..|]. intros [->|H]; [eauto|]. destruct (IH H) as (ar & g & K). eauto. Qed.
Lemma in_ffi_names x a : In x (ffi_names FType a) -> In (DFfi x FType) a.
Proof. induction a as [|[?|?|y k|?] a IH]; cbn; [tauto|auto|auto| |auto]. destruct k; auto. intros [->|H]; auto. Qed.

Lemma names_declared en n rs a c st p : from_ast_imported en n rs a c st = Ok p -> Forall clean_decl a -> import_names a = [] ->
  (forall x i, mget x (p_types p) = Some i -> In x (ffi_names FType a) \/ In x (type_names a)) /\ (forall x v, mget x (p_consts p) = Some v -> In x (const_names a)).
Proof.
  unfold from_ast_imported. intros H C NI. set (q0 := {| p_store := st |}) in *. set (q1 := add_prelude (r_prelude rs) q0) in *.
  destruct (ffi_decls rs a q1) as [q2| | |] eqn:E2; cbn [bind] in H; try discriminate H. destruct (import_decls rs c a q2) as [q3| | |] eqn:E3; cbn [bind] in H; try discriminate H.
  destruct (early en n a q3) as [q4| | |] eqn:E4; cbn [bind] in H; try discriminate H. destruct (late_names a q4) as [[l q5]| | |] eqn:E5; cbn [bind] in H; try discriminate H.
  destruct (late_params en n l q5) as [[l' q6]| | |] eqn:E6; cbn [bind] in H; try discriminate H. destruct (late_bodies en n l' q6) as [q7| | |] eqn:E7; cbn [bind] in H; try discriminate H.
  apply ffi_decls_spec in E2 as (F1 & F2 & F3 & F4 & F5 & F6 & F7). apply import_decls_spec in E3 as (M1 & M2 & M3 & M4).
  apply early_spec in E4 as (A1 & A2 & A3 & A4 & A5 & A6 & A7 & A8 & A9 & A10 & A11); [|exact C].
  apply late_names_spec in E5 as (B1 & B2 & B3 & B4 & B5 & B6 & B7 & B8 & B9 & B10 & B11).
  assert (Cd : forall x args f, In (DType x args f) a -> clean_args args /\ clean_field f) by (intros x args f Hi; rewrite Forall_forall in C; apply (C _ Hi)).
  destruct (late_params_spec _ _ _ _ _ _ E6 B9) as (P1 & P2 & P3 & P4 & P5).
  { intros i x args f Hi. apply B10 in Hi as (Li & _ & Ei & Hd). split; [lia|]. split; [exact Ei|]. apply Cd in Hd. tauto. }
  assert (Ids : map (fun e : frame * nat * name * afield => snd (fst (fst e))) l' = map (fun e : nat * name * list targ * afield => fst (fst (fst e))) l).
  { clear - P5. induction P5 as [|[[[i x] args] f] [[[fr i'] x'] f'] l l' D _ IH]; [reflexivity|]. destruct D as (-> & _). cbn. rewrite IH. reflexivity. }
  destruct (late_bodies_spec _ _ _ _ _ E7) as (L1 & L2 & L3 & L4 & L5).
  { rewrite Ids. exact B9. }
  { intros fr i x f Hi. assert (Q : exists args, In (i, x, args, f) l /\ params_done n q5 q6 (i, x, args, f) (fr, i, x, f)).
    { clear - P5 Hi. induction P5 as [|[[[i0 x0] args] f0] [[[fr' i'] x'] f'] l l' D P IH]; [destruct Hi|]. destruct Hi as [Hi|Hi].
      - injection Hi as -> -> -> ->. exists args. split; [left; destruct D as (-> & -> & -> & _); reflexivity|]. destruct D as (-> & -> & -> & D). repeat split; exact D.
      - destruct (IH Hi) as (ar & I1 & I2). exists ar. split; [right; exact I1|exact I2]. }
    destruct Q as (args & I1 & _ & _ & _ & ps & Ei & _). split; [apply B10 in I1 as (_ & _ & _ & Hd); apply Cd in Hd; tauto|exists ps; exact Ei]. }
  apply scan_spec in H as (S1 & S2 & S3). destruct (add_prelude_spec (r_prelude rs) q0) as (_ & Z2 & Z3 & _). fold q1 in Z2, Z3. cbn in Z2, Z3.
  rewrite NI in M3. split; intros x i H.
  - rewrite (tb_types _ _ S1), (tb_types _ _ L1), (tb_types _ _ P1) in H. apply mget_fst in H. rewrite B8 in H. apply in_app_or in H as [H|H].
    + rewrite A7 in H. apply in_app_or in H as [H|H]; [|right; apply (proj1 (names_split a)); auto]. apply in_fst in H as [v H]. destruct (M3 x (fun F => F)) as (K & _). rewrite K in H. apply mget_fst in H.
      rewrite F7, Z2 in H. left. exact H.
    + right. apply (proj1 (names_split a)). auto.
  - rewrite (tb_consts _ _ S1), (tb_consts _ _ L1), (tb_consts _ _ P1), B3 in H. apply mget_fst in H. rewrite A10 in H. apply in_app_or in H as [H|H]; [|exact H].
    apply in_fst in H as [v H]. destruct (M3 x (fun F => F)) as (_ & K & _). rewrite K, F3, Z3 in H. discriminate H.
Qed.
Lemma own_accepted en n rs a c st p : from_ast_imported en n rs a c st = Ok p -> Forall clean_decl a -> import_names a = [] -> own_names p.
Proof.
  intros H C NI. destruct (names_declared _ _ _ _ _ _ _ H C NI) as [T K]. apply program_elab in H as (_ & _ & D & Ff & _); [|exact C]. rewrite Forall_forall in D. split.
  - intros x i Hx. unfold fname. destruct (T x i Hx) as [Hf|Ht].
    + apply in_ffi_names in Hf. destruct (Ff _ _ Hf) as (ps & j & fd & _ & E1 & E2 & E3 & _); [rewrite NI; tauto|]. assert (j = i) as -> by congruence. rewrite E2. exact E3.
    + apply in_type_names in Ht as (args & f & Ht). destruct (D _ Ht) as (j & fd & E1 & E2 & E3 & _). assert (j = i) as -> by congruence. rewrite E2. exact E3.
  - intros x v Hx. apply K in Hx as Hc. apply in_const_names in Hc as (t & e & Hc). destruct (D _ Hc) as (w & E1 & E2 & _). congruence.
Qed.
