(** Property C55: the generated data types are definitions rustc accepts with the derives asked for.  Model and specification: Derives.v. *)
From Verif Require Import World Spec RtWf Data Derives P_Lengths Examples ExampleFacts.
From Coq Require Import Lia OrderedTypeEx.
Open Scope string_scope. Open Scope Z_scope. Open Scope list_scope.

(** ** The derive list *)
Lemma cmp_eq x y : String.compare x y = Eq -> x = y.
Proof. apply String.compare_eq_iff. Qed.
Lemma cmp_refl x : String.compare x x = Eq.
Proof. pose proof (String.compare_antisym x x) as H. destruct (String.compare x x); cbn in H; congruence. Qed.
Lemma cmp_gt x y : String.compare x y = Gt -> String.compare y x = Lt.
Proof. intros H. rewrite String.compare_antisym, H. reflexivity. Qed.
Lemma cmp_trans x y z : String.compare x y = Lt -> String.compare y z = Lt -> String.compare x z = Lt.
Proof. intros A B. apply String_as_OT.cmp_lt. apply String_as_OT.cmp_lt in A, B. exact (String_as_OT.lt_trans _ _ _ A B). Qed.
Lemma insert_in x y l : In x (insert y l) <-> x = y \/ In x l.
Proof.
  induction l as [|z l IH]; [cbn; intuition|]. cbn [insert]. destruct (String.compare y z) eqn:C; cbn [In].
  - apply cmp_eq in C. subst z. intuition.
  - intuition.
  - rewrite IH. intuition.
Qed.
Lemma sort_in x l : In x (sort_dedup l) <-> In x l.
Proof. induction l as [|y l IH]; [reflexivity|]. cbn [sort_dedup fold_right]. rewrite insert_in. unfold sort_dedup in IH. rewrite IH. cbn. intuition. Qed.
Inductive rising : list string -> Prop :=
| rising_nil : rising []
| rising_cons x l : (forall y, In y l -> String.compare x y = Lt) -> rising l -> rising (x :: l).
Lemma insert_rising x l : rising l -> rising (insert x l).
Proof.
  induction 1 as [|y l L R IH]; [constructor; [intros ? []|constructor]|]. cbn [insert]. destruct (String.compare x y) eqn:C; [constructor; assumption| |].
  - constructor; [|constructor; assumption]. intros z [<-|Z]; [exact C|]. exact (cmp_trans _ _ _ C (L z Z)).
  - constructor; [|exact IH]. intros z Z. apply insert_in in Z as [->|Z]; [exact (cmp_gt _ _ C)|exact (L z Z)].
Qed.
Lemma sort_nodup l : NoDup (sort_dedup l).
Proof.
  assert (R : rising (sort_dedup l)) by (induction l as [|x l IH]; [constructor|apply insert_rising, IH]). induction R as [|x m L _ IH]; constructor; [|exact IH].
  intros X. pose proof (L x X) as E. rewrite cmp_refl in E. discriminate.
Qed.
Lemma struct_in tr o extra : In tr (struct_list o extra) <-> In tr (struct_derives o) \/ In tr extra.
Proof. unfold struct_list. rewrite sort_in, in_app_iff. reflexivity. Qed.
Lemma enum_in tr o extra : In tr (enum_list o extra) <-> tr <> "Default" /\ (In tr (enum_derives o) \/ In tr extra).
Proof.
  unfold enum_list. rewrite sort_in, filter_In, in_app_iff. destruct (String.eqb_spec tr "Default") as [->|N]; cbn; intuition congruence.
Qed.
Lemma mem_s_in x l : mem_s x l = true <-> In x l.
Proof. unfold mem_s. rewrite existsb_exists. split; [intros (y & Y & E); apply String.eqb_eq in E; subst; exact Y|intros H; exists x; split; [exact H|apply String.eqb_refl]]. Qed.

(** ** What is implemented *)
(** The traits asked for: the same for structs and enums, standard ones other than Copy, closed under supertraits. *)
Record coherent (o : derive_options) : Prop := {
  co_std : forall tr, In tr (struct_derives o) -> In tr std_traits /\ tr <> "Copy";
  co_same : forall tr, In tr (struct_derives o) <-> In tr (enum_derives o);
  co_super : forall tr s, In tr (struct_derives o) -> In s (supertraits tr) -> In s (struct_derives o)
}.
Lemma asked o g tr : coherent o -> g <> GNone -> In tr (struct_derives o) -> implemented o g tr.
Proof.
  intros C N H. unfold implemented. destruct g; try congruence; cbn [attr_list writes_default].
  - left. apply struct_in. auto.
  - apply (co_same o C) in H. destruct (String.eqb_spec tr "Default") as [->|D]; [right; split; [apply mem_s_in, H|reflexivity]|left; apply enum_in; auto].
  - left. apply struct_in. auto.
  - apply (co_same o C) in H. destruct (String.eqb_spec tr "Default") as [->|D]; [right; split; [apply mem_s_in, H|reflexivity]|left; apply enum_in; auto].
  - left. apply struct_in. auto.
Qed.

Section Rustc.
  Variable p : program.
  Variable o : derive_options.
  Variable F : string -> string -> Prop.
  Hypothesis C : coherent o.

  Lemma type_implements tr : In tr (struct_derives o) -> forall t,
    (forall n, In n (names_in t) -> exists d g, p n = Some d /\ data_of p d = Some g /\ g <> GNone) -> (forall f, In f (foreign_in t) -> F f tr) ->
    (In tr not_floats -> has_float t = false) -> implements p o F tr t.
  Proof.
    intros T. destruct (co_std o C tr T) as [S1 S2]. induction t as [s| | | |t IH|t IH|f|n]; intros N Fo Fl; cbn [implements].
    - exact S1.
    - split; [exact S1|]. intros X. specialize (Fl X). discriminate.
    - split; [exact S1|]. intros X. specialize (Fl X). discriminate.
    - exact S1.
    - right. split; [exact S2|]. split; [exact S1|]. apply IH; assumption.
    - right. split; [exact S1|]. apply IH; assumption.
    - apply Fo. left. reflexivity.
    - destruct (N n (or_introl eq_refl)) as (d & g & P & D & G). exists d, g. split; [exact P|]. split; [exact D|]. apply asked; assumption.
  Qed.
End Rustc.

(** ** The Default of a tagged container sets the variant's fields *)
(** Padding directives are not containers (Program.v never makes one). *)
Fixpoint flat_pads (t : ty) : Prop :=
  match t with TCont _ _ items => (fix go (l : list (fattr * ty)) : Prop := match l with [] => True | f :: l => (fa_pad (fst f) = true -> is_cont (snd f) = false) /\ flat_pads (snd f) /\ go l end) items | _ => True end.
Lemma gen_field_leaf p c a t : is_cont t = false -> gen_field p c a t = if fa_pad a then Some [] else match type_ref p t with Some r => Some [(fa_name a, if c || is_some (fa_cond a) then RTOpt r else r)] | None => None end.
Proof. destruct t; try discriminate; reflexivity. Qed.
Lemma gen_field_cont p c a len tg items : fa_pad a = false -> gen_field p c a (TCont len tg items) = gen_fields p (c || is_some (fa_cond a)) items.
Proof. intros H. cbn [gen_field]. rewrite H. induction items as [|f l IH]; [reflexivity|]. cbn [gen_fields]. rewrite <- IH. reflexivity. Qed.
Lemma default_field_cont a len tg items : default_field a (TCont len tg items) = default_fields items.
Proof. cbn [default_field]. unfold default_fields. induction items as [|f l IH]; [reflexivity|]. cbn [flat_map]. rewrite <- IH. reflexivity. Qed.
Lemma oapp_some {A} (a b : option (list A)) c : oapp a b = Some c -> exists x y, a = Some x /\ b = Some y /\ c = x ++ y.
Proof. destruct a as [x|], b as [y|]; cbn; try discriminate. intros H. injection H as <-. exists x, y. auto. Qed.
Lemma default_names p : forall t c a fs, (fa_pad a = true -> is_cont t = false) -> flat_pads t -> gen_field p c a t = Some fs -> default_field a t = map fst fs.
Proof.
  assert (L : forall t c a fs, is_cont t = false -> gen_field p c a t = Some fs -> (if fa_pad a then [] else [fa_name a]) = map fst fs).
  { intros t c a fs T G. rewrite gen_field_leaf in G by exact T. destruct (fa_pad a); [injection G as <-; reflexivity|]. destruct (type_ref p t); [injection G as <-; reflexivity|discriminate]. }
  induction t as [e| | | |d|d|n|n args|el lc IH|len tg items IH] using ty_ind'; intros c a fs Ha Hp G; try (refine (L _ c a fs _ G); reflexivity).
  destruct (fa_pad a) eqn:A; [discriminate (Ha eq_refl)|]. rewrite gen_field_cont in G by exact A. rewrite default_field_cont. clear Ha A. revert Hp G. generalize (c || is_some (fa_cond a)). intros c'. revert fs.
  induction IH as [|f l IHf _ IHl]; intros fs Hp G; cbn [gen_fields] in G; [injection G as <-; reflexivity|]. apply oapp_some in G as (x & y & Gx & Gy & ->). cbn [flat_pads] in Hp. destruct Hp as (Pa & Pf & Pl).
  unfold default_fields. cbn [flat_map]. rewrite (IHf c' (fst f) x Pa Pf Gx), map_app. f_equal. apply (IHl y Pl Gy).
Qed.
Lemma default_names_all p c len tg items fs : flat_pads (TCont len tg items) -> gen_fields p c items = Some fs -> default_fields items = map fst fs.
Proof.
  intros P G. set (a := {| fa_name := ""; fa_calc := None; fa_cond := None; fa_xs := []; fa_pad := false |}). rewrite <- (default_field_cont a len tg).
  apply (default_names p (TCont len tg items) c a); [discriminate|exact P|]. rewrite gen_field_cont by reflexivity. cbn. rewrite orb_false_r. exact G.
Qed.

(** ** The definitions that are accepted *)
(** A declared type is well founded for derives: a tagged container has a first variant, an enum a first item with a value. *)
Definition has_first (d : decl) : Prop :=
  match d_ty d with
  | TCont _ true items => items <> []
  | TEnum e => match en_items e with (_, Some _) :: _ => True | _ => False end
  | _ => True
  end.
Lemma int_enum_stored t e : In t (stored (GEnum e)) -> exists s, t = RTInt s.
Proof. intros H. cbn [stored] in H. apply in_flat_map in H as (i & _ & H). destruct (snd i); [destruct H|]. destruct H as [<-|[]]. eexists. reflexivity. Qed.
Section Main.
  Variable p : program.
  Variable o : derive_options.
  Variable F : string -> string -> Prop.
  Hypothesis C : coherent o.
  Variable d : decl.
  Variable g : gdef.
  Hypothesis G : data_of p d = Some g.
  Hypothesis Hf : has_first d.
  Hypothesis Hp : flat_pads (d_ty d).
  (** every type named in it is generated; the foreign types implement what is asked for; floats only where the traits allow them *)
  Hypothesis Hn : forall t n, In t (stored g) -> In n (names_in t) -> exists d' g', p n = Some d' /\ data_of p d' = Some g' /\ g' <> GNone.
  Hypothesis Ho : forall t f tr, In t (stored g) -> In f (foreign_in t) -> In tr (struct_derives o) -> F f tr.
  Hypothesis Hfl : forall t tr, In t (stored g) -> In tr (struct_derives o) -> In tr not_floats -> has_float t = false.
  Hypothesis Hb : match g with GBits b => bf_items b <> [] -> In "PartialEq" (struct_derives o) | _ => True end.

  Lemma stored_implements tr t : In tr (struct_derives o) -> In t (stored g) -> implements p o F tr t.
  Proof. intros T S. apply type_implements; [exact C|exact T|intros n; apply Hn, S|intros f I; exact (Ho t f tr S I T)|intros X; exact (Hfl t tr S T X)]. Qed.
  Lemma attr_std tr : In tr (attr_list o g) -> In tr std_traits.
  Proof.
    assert (S1 : forall x, In x (struct_derives o) -> In x std_traits) by (intros x X; apply (co_std o C x X)).
    assert (S2 : forall x, In x (enum_derives o) -> In x std_traits) by (intros x X; apply S1, (co_same o C), X).
    destruct g; cbn [attr_list]; rewrite ?struct_in, ?enum_in; cbn [In]; intros H; repeat match goal with H : _ /\ _ |- _ => destruct H | H : _ \/ _ |- _ => destruct H end; subst; try contradiction; auto; cbn; tauto.
  Qed.
  Lemma attr_extra tr : In tr (attr_list o g) -> In tr (struct_derives o) \/ match g with GEnum _ => In tr ["Clone"; "Copy"] | GBits _ => In tr ["Clone"; "Copy"; "Default"] | _ => False end.
  Proof.
    pose proof (co_same o C tr) as Q. destruct g; cbn [attr_list]; rewrite ?struct_in, ?enum_in; intros H; try (destruct H as [H|[]]; auto; fail); intuition.
  Qed.
  Lemma derives_all tr : In tr (attr_list o g) -> derives_ok p o F g tr.
  Proof.
    intros H. pose proof (attr_std tr H) as St. split; [|split].
    - intros t S. destruct (attr_extra tr H) as [A|A]; [exact (stored_implements tr t A S)|]. destruct g as [| | |e|b|]; try destruct A; [destruct (int_enum_stored t e S) as [s ->]; exact St|destruct (int_enum_stored t e S) as [s ->]; exact St|cbn in S; destruct S as [<-|[]]; exact St..].
    - intros s Hs. destruct (attr_extra tr H) as [A|A].
      + apply asked; [exact C| |exact (co_super o C tr s A Hs)]. intros ->. destruct H.
      + assert (s = "Clone").
        { destruct g; try destruct A as [<-|[<-|A]]; try destruct A as [<-|[]]; try destruct A; cbn in Hs; try contradiction; destruct Hs as [<-|[]]; reflexivity. }
        subst s. destruct g; try (destruct A; fail); left; cbn [attr_list]; [apply enum_in; split; [discriminate|right; cbn; tauto]|apply struct_in; right; cbn; tauto].
    - intros ->. destruct g; try exact I; cbn [attr_list] in H; apply enum_in in H as [N _]; congruence.
  Qed.
  Lemma default_all : writes_default o g = true -> default_ok p o F d g.
  Proof.
    intros W. assert (D : In "Default" (struct_derives o)) by (apply (co_same o C), mem_s_in; destruct g; try discriminate; exact W).
    pose proof (fun t => stored_implements "Default" t D) as Im. unfold data_of in G. unfold has_first in Hf. unfold default_ok, default_of.
    destruct (d_ty d) as [e| | | |e|b|f|n args|el lc|len tg items] eqn:T; try (injection G as <-; discriminate); try (destruct (type_ref p _); [injection G as <-; discriminate|discriminate]).
    - injection G as <-. destruct (en_items e) as [|[x [z|]] r] eqn:E; try destruct Hf. exists z. unfold lookup; cbn; rewrite String.eqb_refl. reflexivity.
    - destruct tg; [|destruct (gen_fields p false items); [injection G as <-; discriminate|discriminate]].
      destruct (gen_variants p items) as [vs|] eqn:V; [injection G as <-|discriminate]. destruct items as [|[a t] items]; [congruence|]. cbn [gen_variants] in V.
      cbn [flat_pads fst snd] in Hp. destruct Hp as (_ & Pt & _).
      destruct t as [e| | | |e|b|f|n args|el lc|len' tg' sub]; cbn [option_map] in V;
        try (destruct (type_ref p _) as [r|]; [|discriminate]; destruct (gen_variants p items) as [vs'|]; [|discriminate]; cbn [option_map] in V; injection V as <-;
             exists r; unfold lookup; cbn [find fst snd]; rewrite String.eqb_refl; split; [reflexivity|]; apply Im; left; reflexivity).
      + destruct (gen_fields p false sub) as [fs|] eqn:Fs; [|discriminate]. destruct (gen_variants p items) as [vs'|]; [|discriminate]. cbn [option_map] in V. injection V as <-.
        exists fs. unfold lookup; cbn [find fst snd]; rewrite String.eqb_refl. split; [reflexivity|]. split; [exact (default_names_all p false len' tg' sub fs Pt Fs)|].
        intros t Ht. apply Im. cbn [stored flat_map snd]. apply in_or_app. left. exact Ht.
  Qed.
  Lemma accepts_all : accepts p o F d g.
  Proof.
    split.
    - unfold emit_derives. destruct (forallb rust_ident (attr_list o g)) eqn:E; [discriminate|]. exfalso. apply not_true_iff_false in E. apply E, forallb_forall. intros x X.
      apply attr_std in X. cbn in X. repeat (destruct X as [<-|X]; [reflexivity|]). destruct X.
    - split; [destruct g; cbn [attr_list]; try apply sort_nodup; constructor|]. intros W H. destruct g; try discriminate; cbn [attr_list] in H; apply enum_in in H as [N _]; congruence.
    - exact derives_all.
    - exact default_all.
    - destruct g as [| | | |b|]; try exact I. intros N. split; [|left; cbn [attr_list]; apply struct_in; right; cbn; tauto]. apply asked; [exact C|discriminate|exact (Hb N)].
  Qed.
End Main.

(** Every option: the derive attribute lists each trait once; a struct has the traits asked for, an enum those other than Default; plain enums are Clone and
    Copy besides, bitfields Clone, Copy and Default. *)
Theorem C55_derive_list : forall o g tr, NoDup (attr_list o g) /\
  (In tr (attr_list o g) <->
   match g with
   | GStruct _ | GTuple _ => In tr (struct_derives o)
   | GTagged _ => In tr (enum_derives o) /\ tr <> "Default"
   | GEnum _ => (In tr (enum_derives o) \/ tr = "Clone" \/ tr = "Copy") /\ tr <> "Default"
   | GBits _ => In tr (struct_derives o) \/ tr = "Clone" \/ tr = "Copy" \/ tr = "Default"
   | GNone => False
   end).
Proof.
  intros o g tr. split; [destruct g; cbn [attr_list]; try apply sort_nodup; constructor|]. destruct g; cbn [attr_list]; rewrite ?struct_in, ?enum_in; cbn [In]; intuition (subst; auto; congruence).
Qed.
Print Assumptions C55_derive_list.

(** rustc accepts the derives and the Default of every generated definition whose types are all generated, for coherent options; floating point numbers
    only where no Eq, Ord or Hash is asked for. *)
Theorem C55_derives_accepted_partial : forall p o (F : string -> string -> Prop) d g, coherent o -> data_of p d = Some g -> has_first d -> flat_pads (d_ty d) ->
  (forall t n, In t (stored g) -> In n (names_in t) -> exists d' g', p n = Some d' /\ data_of p d' = Some g' /\ g' <> GNone) ->
  (forall t f tr, In t (stored g) -> In f (foreign_in t) -> In tr (struct_derives o) -> F f tr) ->
  (forall t tr, In t (stored g) -> In tr (struct_derives o) -> In tr not_floats -> has_float t = false) ->
  match g with GBits b => bf_items b <> [] -> In "PartialEq" (struct_derives o) | _ => True end ->
  accepts p o F d g.
Proof. intros p o F d g C. exact (accepts_all p o F C d g). Qed.
Print Assumptions C55_derives_accepted_partial.

(** ** Whole programs, with the prelude's types (integers and String) and the default options *)
Definition std_foreign (_ tr : string) : Prop := In tr std_traits /\ tr <> "Copy".
Definition has_firstb (d : decl) : bool :=
  match d_ty d with
  | TCont _ true items => match items with [] => false | _ => true end
  | TEnum e => match en_items e with (_, Some _) :: _ => true | _ => false end
  | _ => true
  end.
Fixpoint flat_padsb (t : ty) : bool :=
  match t with TCont _ _ items => forallb (fun f => (negb (fa_pad (fst f)) || negb (is_cont (snd f))) && flat_padsb (snd f)) items | _ => true end.
Definition generated (p : program) (n : string) : bool :=
  match p n with Some d => match data_of p d with Some GNone | None => false | Some _ => true end | None => false end.
(** Every declaration has a definition, whose type names are generated; [floats]: whether floating point numbers may occur. *)
Definition ready (floats : bool) (l : list (string * decl)) : bool :=
  forallb (fun nd => match data_of (prog l) (snd nd) with
    | None => false
    | Some g => has_firstb (snd nd) && flat_padsb (d_ty (snd nd)) && forallb (fun t => forallb (generated (prog l)) (names_in t) && (floats || negb (has_float t))) (stored g)
    end) l.
Lemma flat_padsb_ok t : flat_padsb t = true -> flat_pads t.
Proof.
  induction t as [e| | | |d|d|n|n args|el lc IH|len tg items IH] using ty_ind'; try (intros; exact I). cbn [flat_padsb flat_pads].
  induction IH as [|f l IHf _ IHl]; intros H; [exact I|]. cbn [forallb] in H. apply andb_prop in H as [H1 H2]. apply andb_prop in H1 as [H1 H3].
  split; [|split; [exact (IHf H3)|exact (IHl H2)]]. intros P. rewrite P in H1. cbn in H1. apply negb_true_iff in H1. exact H1.
Qed.
Lemma has_firstb_ok d : has_firstb d = true -> has_first d.
Proof.
  unfold has_firstb, has_first. destruct (d_ty d) as [e| | | |e|b|f|n args|el lc|len [|] items]; try (intros; exact I).
  - destruct (en_items e) as [|[x [z|]] r]; try discriminate. intros; exact I.
  - destruct items; [discriminate|]. intros _. discriminate.
Qed.
Lemma ready_accepts o floats l : coherent o -> In "PartialEq" (struct_derives o) -> (floats = true -> forall tr, In tr (struct_derives o) -> ~ In tr not_floats) -> ready floats l = true ->
  forall n d, In (n, d) l -> exists g, data_of (prog l) d = Some g /\ accepts (prog l) o std_foreign d g.
Proof.
  intros C PE Fl R n d I. unfold ready in R. rewrite forallb_forall in R. specialize (R _ I). cbn [snd] in R. destruct (data_of (prog l) d) as [g|] eqn:G; [|discriminate]. exists g. split; [reflexivity|].
  apply andb_prop in R as [R Rs]. apply andb_prop in R as [R1 R2]. rewrite forallb_forall in Rs.
  apply (accepts_all _ _ _ C); [exact G|exact (has_firstb_ok d R1)|exact (flat_padsb_ok _ R2)| | | |destruct g; try exact Logic.I; intros _; exact PE].
  - intros t m T M. specialize (Rs t T). apply andb_prop in Rs as [Rn _]. rewrite forallb_forall in Rn. specialize (Rn m M). unfold generated in Rn.
    destruct (prog l m) as [d'|]; [|discriminate]. destruct (data_of (prog l) d') as [g'|] eqn:G'; [|discriminate]. exists d', g'. split; [reflexivity|]. split; [exact G'|]. intros ->. discriminate.
  - intros t f tr _ _ A. exact (co_std o C tr A).
  - intros t tr T A N. specialize (Rs t T). apply andb_prop in Rs as [_ Rf]. destruct floats; [destruct (Fl eq_refl tr A N)|]. cbn in Rf. apply negb_true_iff in Rf. exact Rf.
Qed.
Lemma compile_coherent : coherent compile_defaults.
Proof.
  split; [| |]; cbn [struct_derives enum_derives compile_defaults].
  - intros tr H. cbn in H. repeat destruct H as [<-|H]; try destruct H; (split; [cbn; tauto|discriminate]).
  - reflexivity.
  - intros tr s H. cbn in H. repeat destruct H as [<-|H]; try destruct H; cbn; tauto.
Qed.
Lemma spec_coherent : coherent spec_defaults.
Proof.
  split; [| |]; cbn [struct_derives enum_derives spec_defaults].
  - intros tr H. cbn in H. repeat destruct H as [<-|H]; try destruct H; (split; [cbn; tauto|discriminate]).
  - reflexivity.
  - intros tr s H. cbn in H. repeat destruct H as [<-|H]; try destruct H; cbn; tauto.
Qed.
(** CompileOptions::default(): any ready program.  Options::default(), which asks for Eq: any ready program without floating point numbers. *)
Theorem C55_compile_defaults_partial : forall l, ready true l = true ->
  forall n d, In (n, d) l -> exists g, data_of (prog l) d = Some g /\ accepts (prog l) compile_defaults std_foreign d g.
Proof.
  intros l. apply ready_accepts; [exact compile_coherent|cbn; tauto|]. intros _ tr H N. cbn in H, N. intuition (subst; discriminate).
Qed.
Print Assumptions C55_compile_defaults_partial.
Theorem C55_spec_defaults_partial : forall l, ready false l = true ->
  forall n d, In (n, d) l -> exists g, data_of (prog l) d = Some g /\ accepts (prog l) spec_defaults std_foreign d g.
Proof. intros l. apply ready_accepts; [exact spec_coherent|cbn; tauto|discriminate]. Qed.
Print Assumptions C55_spec_defaults_partial.
(** The NBT, PNG and packet specifications and one with every kind of type. *)
Definition kinds_text : string := "type e = enum u8 { a = 1, b, other = default }; type f = bitfield u16 { x = 1, y = 2 }; type s = container { n: u64 = len(l), l: e[n], c: container { k: f { n == 1 }, .pad: 3 }, g: f64 }; type t(k: u8) = container +tagged_enum { v: container { q: s } { k == 1 }, w: s[..] };".
Example C55_nonvacuous : ready true nbt_prog = true /\ ready false png_prog = true /\ ready false packet_prog = true /\
  match compiled kinds_text with Some l => ready true l = true | None => False end.
Proof. vm_compute. repeat split. Qed.

(** ** Where it fails, on accepted specifications *)
Definition declared (text : string) (n : string) : option (list (string * decl) * decl * gdef) :=
  match compiled text with
  | Some l => match prog l n with Some d => match data_of (prog l) d with Some g => Some (l, d, g) | None => None end | None => None end
  | None => None
  end.
(** Options::default() asks for Eq: no specification with a floating point number compiles. *)
Theorem C55_float_refuted : exists l d g, declared "type a = f32;" "a" = Some (l, d, g) /\ In "Eq" (attr_list spec_defaults g) /\ ~ derives_ok (prog l) spec_defaults std_foreign g "Eq".
Proof.
  eexists _, _, _. split; [vm_compute; reflexivity|]. split; [vm_compute; tauto|]. intros [H _]. destruct (H RTF32 (or_introl eq_refl)) as [_ N]. apply N. cbn. tauto.
Qed.
Print Assumptions C55_float_refuted.
(** The Default of an enum whose only item is the default item names a variant that has a payload. *)
Theorem C55_default_item_refuted : exists l d g, declared "type a = enum u8 { x = default };" "a" = Some (l, d, g) /\
  writes_default spec_defaults g = true /\ default_of d = Some ("x", PUnit) /\ ~ default_ok (prog l) spec_defaults std_foreign d g.
Proof. eexists _, _, _. split; [vm_compute; reflexivity|]. split; [reflexivity|]. split; [reflexivity|]. intros [z H]. vm_compute in H. discriminate. Qed.
Print Assumptions C55_default_item_refuted.
(** A tagged container without variants is accepted, and panics the compiler when Default is asked for (as by default). *)
Theorem C55_no_variants_refuted : exists l d g, declared "type a = container +tagged_enum {};" "a" = Some (l, d, g) /\ writes_default spec_defaults g = true /\ default_of d = None.
Proof. eexists _, _, _. split; [vm_compute; reflexivity|]. split; reflexivity. Qed.
Print Assumptions C55_no_variants_refuted.
(** A derive given by its path panics the compiler. *)
Theorem C55_path_derive_refuted : forall g, g <> GNone -> emit_derives (attr_list {| struct_derives := ["serde::Serialize"]; enum_derives := ["serde::Serialize"] |} g) = None.
Proof. intros []; try (intros _; vm_compute; reflexivity). congruence. Qed.
Print Assumptions C55_path_derive_refuted.
(** A field of a nested container may have the name of a field outside it: the struct then has two fields of one name. *)
Theorem C55_duplicate_field_refuted : exists l d fs, declared "type a = container { x: u8, b: container { x: u8 } };" "a" = Some (l, d, GStruct fs) /\ map fst fs = ["x"; "x"].
Proof. eexists _, _, _. split; vm_compute; reflexivity. Qed.
Print Assumptions C55_duplicate_field_refuted.
(** Words Rust reserves are accepted as names, and used as they are. *)
Definition rust_keywords : list string := ["as"; "async"; "await"; "break"; "const"; "continue"; "crate"; "dyn"; "else"; "enum"; "extern"; "false"; "fn"; "for"; "if"; "impl"; "in"; "let"; "loop"; "match"; "mod"; "move"; "mut"; "pub"; "ref"; "return"; "self"; "Self"; "static"; "struct"; "super"; "trait"; "true"; "type"; "unsafe"; "use"; "where"; "while"].
Theorem C55_keyword_refuted : exists l d fs x, declared "type a = container { match: u8 };" "a" = Some (l, d, GStruct fs) /\ In x (map fst fs) /\ In x rust_keywords.
Proof. eexists _, _, _, "match". split; [vm_compute; reflexivity|]. split; cbn; tauto. Qed.
Print Assumptions C55_keyword_refuted.
