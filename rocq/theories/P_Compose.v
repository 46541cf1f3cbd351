(** C68: a container of plain or conditional fields is written as what its fields are
    written as, one after the other, and read by reading its fields in turn.  The
    generated code of one declaration can therefore be understood (and replaced by
    hand-written code) knowing only what [encode] and [decode] do for the types its
    fields refer to. *)
From Verif Require Import ScalarFacts DecRef EncRef RtWf RoundTrip World Sample Reenc CoderFacts P_Lengths P_Safe.
Open Scope string_scope. Open Scope Z_scope. Open Scope list_scope.

(** ** What the property speaks about *)

(** A field without calculated value, padding or transform whose type is a primitive or
    a reference to a declared or foreign type, with any type arguments and possibly a
    condition. *)
Definition plain_field (f : fattr * ty) : Prop :=
  fa_calc (fst f) = None /\ fa_pad (fst f) = false /\ fa_xs (fst f) = [] /\
  match snd f with TScalar _ | TF32 | TF64 | TBool | TRef _ _ => True | _ => False end.

(** The bytes of a primitive, with the value they stand for. *)
Definition read_prim (pr : prim) (l : list Z) : res ioerr (val * list Z) :=
  let! (a, rest) := read_exact (prim_size pr) l in Ok (prim_of pr a, rest).

Section Fields.
  Variables (w : world) (p : program) (rf k : nat).
  (** The type's own arguments and the fields seen so far. *)
  Variable inp : list (string * val).
  Definition value_of (seen : list (string * val)) (e : expr) : res ioerr val := eval w (fun n => lookup n inp) (fun n => lookup n seen) e.
  Definition holds (seen : list (string * val)) (c : option expr) : res ioerr bool :=
    match c with None => Ok true | Some e => let! v := value_of seen e in bool_of v end.

  (** Read a value of a field's type: by its own [decode] if it is a declared type. *)
  Definition read_one (seen : list (string * val)) (t : ty) (l : list Z) : res ioerr (val * list Z) :=
    match t with
    | TScalar e => read_prim (PScalar e) l
    | TF32 => read_prim PF32 l
    | TF64 => read_prim PF64 l
    | TBool => read_prim PBool l
    | TRef n args => let! vs := mapM (value_of seen) args in
        match foreign_of p n with Some f => w_fdec w f vs l | None => decode w p rf k n vs l end
    | _ => Panic
    end.
  Definition write_one (seen : list (string * val)) (t : ty) (v : val) : res ioerr (list Z) :=
    match t with
    | TScalar e => prim_enc (PScalar e) v
    | TF32 => prim_enc PF32 v
    | TF64 => prim_enc PF64 v
    | TBool => prim_enc PBool v
    | TRef n args => let! vs := mapM (value_of seen) args in
        match foreign_of p n with Some f => w_fenc w f vs v | None => encode w p rf k n vs v end
    | _ => Panic
    end.

  (** The fields in turn; conditional ones are options. *)
  Fixpoint read_fields (fields : list (fattr * ty)) (seen : list (string * val)) (l : list Z) : res ioerr (list (string * val) * list Z) :=
    match fields with
    | [] => Ok ([], l)
    | (a, t) :: fields =>
        let! c := holds seen (fa_cond a) in
        let! (v, l) := (if c then let! (v, l) := read_one seen t l in Ok ((if is_some (fa_cond a) then VOpt (Some v) else v), l)
                        else Ok (VOpt None, l)) in
        let! (vs, l) := read_fields fields ((fa_name a, v) :: seen) l in
        Ok ((fa_name a, v) :: vs, l)
    end.
  (** [fs] holds the values of all fields. *)
  Fixpoint write_fields (fields : list (fattr * ty)) (fs : list (string * val)) : res ioerr (list Z) :=
    match fields with
    | [] => Ok []
    | (a, t) :: more =>
        let! v := of_some (lookup (fa_name a) fs) in
        let! c := holds fs (fa_cond a) in
        let! b := (if c then let! v := (if is_some (fa_cond a) then unwrap_opt v else Ok v) in write_one fs t v else Ok []) in
        let! bs := write_fields more fs in
        Ok (b ++ bs)
    end.
End Fields.

(** ** Proofs *)

Section Facts.
  Variables (w : world) (p : program) (rf : nat).
  Hypothesis Hw : world_suffixing w.
  Hypothesis Hp : compiles p rf.
  Variable k : nat.
  Variable inp : list (string * val).
  Notation li := (fun x => lookup x inp).

  Lemma read_one_ok f seen l : plain_field f -> sd_type w p rf li (sdecode w p rf k) seen (snd f) l = read_one w p rf k inp seen (snd f) l.
  Proof.
    intros (_ & _ & _ & T). destruct (snd f) as [e| | | |d|d|n|n args|el lc|len tg items]; try contradiction; cbn [sd_type read_one]; try reflexivity.
    change (mapM (value_of w inp seen) args) with (mapM (ev w li seen) args).
    destruct (mapM (ev w li seen) args) as [vs| | |]; try reflexivity. cbn [bind]. unfold foreign_of.
    assert (D : sdecode w p rf k n vs l = decode w p rf k n vs l) by (symmetry; apply decode_refines; [exact Hw|apply Hp]).
    destruct (p n) as [[da dt dp]|]; [destruct dt|]; cbn [d_ty]; try exact D. reflexivity.
  Qed.
  Lemma write_one_ok f seen v : plain_field f -> (let! (b, _) := se_type w p rf li None (sencode w p rf None k) seen (snd f) v in Ok b) = write_one w p rf k inp seen (snd f) v.
  Proof.
    intros (_ & _ & _ & T). destruct (snd f) as [e| | | |d|d|n|n args|el lc|len tg items]; try contradiction; cbn [se_type write_one]; unfold se_prim.
    1-4: match goal with |- context [prim_enc ?a ?b] => destruct (prim_enc a b); reflexivity end.
    change (mapM (value_of w inp seen) args) with (mapM (ev w li seen) args).
    destruct (mapM (ev w li seen) args) as [vs| | |]; try reflexivity. cbn [bind]. unfold foreign_of.
    destruct (p n) as [[da dt dp]|]; [destruct dt|]; cbn [d_ty]; try (symmetry; rewrite (encode_refines w p rf (proj2 Hp)); reflexivity).
    unfold se_foreign, refuse. destruct (w_fenc w n0 vs v); reflexivity.
  Qed.
End Facts.

Definition field_names (l : list (fattr * ty)) : list string := map (fun f => fa_name (fst f)) l.

Section Facts2.
  Variables (w : world) (p : program) (rf : nat).
  Hypothesis Hw : world_suffixing w.
  Hypothesis Hp : compiles p rf.
  Variable k : nat.
  Variable inp : list (string * val).
  Notation li := (fun x => lookup x inp).

  Lemma plain_leaf f : plain_field f -> leaf f = true.
  Proof. intros (_ & P & _ & T). unfold leaf. rewrite P. destruct (snd f); try contradiction; reflexivity. Qed.
  Lemma plain_cont f : plain_field f -> is_cont (snd f) = false.
  Proof. intros (_ & P & _ & T). destruct (snd f); try contradiction; reflexivity. Qed.
  Lemma plain_flat l : Forall plain_field l -> flatten_items l = l /\ leaf_names l = field_names l.
  Proof.
    induction 1 as [|f l H _ (IH1 & IH2)]; [split; reflexivity|]. split.
    - unfold flatten_items. cbn [flat_map]. fold (flatten_items l). rewrite IH1. unfold flatten_field. rewrite (plain_cont f H). reflexivity.
    - unfold leaf_names, field_names in *. cbn [filter map]. rewrite (plain_leaf f H). cbn [map]. rewrite IH2. reflexivity.
  Qed.

  Lemma read_fields_ok l : Forall plain_field l -> forall seen b,
    sd_items w li (map (sd_item w p rf li (sdecode w p rf k)) l) seen b = read_fields w p rf k inp l seen b.
  Proof.
    induction 1 as [|[a t] l H _ IH]; intros seen b; [reflexivity|]. pose proof (read_one_ok w p rf Hw Hp k inp (a, t) seen) as R. pose proof (plain_cont _ H) as C. pose proof (plain_leaf _ H) as L.
    specialize (fun b => R b H). destruct H as (_ & P & X & _). cbn [fst snd] in *. cbn [map sd_items read_fields]. unfold sd_field, sd_item at 1. cbn [fst snd].
    assert (B : forall b, sd_xs w li seen (rev (fa_xs a)) (sd_complex w p rf li (sdecode w p rf k) a t seen) b = let! (v, l1) := read_one w p rf k inp seen t b in Ok ([(fa_name a, v)], l1)).
    { intros b0. rewrite X. cbn [rev sd_xs]. rewrite <- R. destruct t; cbn [is_cont] in C; try discriminate C; cbn [sd_complex]; rewrite P; reflexivity. }
    unfold holds, value_of. unfold ev. destruct (fa_cond a) as [e|]; cbn [is_some].
    - destruct (eval w li (fun n => lookup n seen) e) as [c| | |]; try reflexivity. cbn [bind]. rewrite P. destruct (bool_of c) as [[|]| | |]; try reflexivity; cbn [bind].
      + rewrite B. destruct (read_one w p rf k inp seen t b) as [[v l1]| | |]; try reflexivity. cbn [bind wrap_some map fst snd rev app]. rewrite IH. destruct (read_fields w p rf k inp l ((fa_name a, VOpt (Some v)) :: seen) l1) as [[vs r]| | |]; reflexivity.
      + unfold flatten_field. cbn [snd]. rewrite C. unfold leaf_names. cbn [filter map]. rewrite L. cbn [map all_none fst rev app]. rewrite IH. destruct (read_fields w p rf k inp l ((fa_name a, VOpt None) :: seen) b) as [[vs r]| | |]; reflexivity.
    - cbn [bind]. rewrite B. destruct (read_one w p rf k inp seen t b) as [[v l1]| | |]; try reflexivity. cbn [bind rev app]. rewrite IH. destruct (read_fields w p rf k inp l ((fa_name a, v) :: seen) l1) as [[vs r]| | |]; reflexivity.
  Qed.

  Lemma value_ext en fs e : (forall n, lookup n en = lookup n fs) -> value_of w inp en e = value_of w inp fs e.
  Proof. intros E. unfold value_of. apply eval_ext. exact E. Qed.
  Lemma write_one_ext en fs t v : (forall n, lookup n en = lookup n fs) -> write_one w p rf k inp en t v = write_one w p rf k inp fs t v.
  Proof.
    intros E. destruct t; cbn [write_one]; try reflexivity. replace (mapM (value_of w inp en) args) with (mapM (value_of w inp fs) args); [reflexivity|].
    induction args as [|e args IH]; [reflexivity|]. cbn [mapM]. rewrite (value_ext en fs e E), IH. reflexivity.
  Qed.

  Lemma write_fields_ok fs en l : (forall n, lookup n en = lookup n fs) -> Forall plain_field l -> forall out vs0,
    (let! (b, _) := se_items w li None (map (se_item w p rf li None (sencode w p rf None k)) l) en false out vs0 None in Ok b) =
    (let! b := write_fields w p rf k inp l fs in Ok (out ++ b)).
  Proof.
    intros E. induction 1 as [|[a t] l H _ IH]; intros out vs0; [cbn; rewrite app_nil_r; reflexivity|]. pose proof (write_one_ok w p rf Hp k inp (a, t) en) as R. pose proof (plain_cont _ H) as C. pose proof (plain_leaf _ H) as L.
    specialize (fun v => R v H). destruct H as (Ca & P & X & _). cbn [fst snd] in *. cbn [map]. unfold se_item at 1. cbn [fst snd se_items write_fields]. rewrite Ca, C, P. cbn [orb]. rewrite E.
    destruct (lookup (fa_name a) fs) as [v|]; [|reflexivity]. cbn [of_some bind is_some andb].
    assert (B : forall r c, se_xs w li None en (fa_xs a) (let! v := r in let! (b, vs) := se_complex w p rf li None (sencode w p rf None k) a t en v c false in Ok (b, (vs, List.length b))) =
      (let! v := r in let! (b, v') := se_type w p rf li None (sencode w p rf None k) en t v in Ok (b, ([(fa_name a, v')], List.length b)))).
    { intros r c. rewrite X. cbn [se_xs]. destruct r as [v0| | |]; try reflexivity. cbn [bind]. destruct t; cbn [is_cont] in C; try discriminate C; cbn [se_complex]; rewrite P;
        match goal with |- context [se_type ?a ?b ?c ?d ?e ?f ?g ?t ?v] => destruct (se_type a b c d e f g t v) as [[b0 v1]| | |]; reflexivity end. }
    assert (R' : forall v, write_one w p rf k inp fs t v = (let! (b, _) := se_type w p rf li None (sencode w p rf None k) en t v in Ok b)) by (intros v0; rewrite R; symmetry; apply write_one_ext; exact E).
    assert (EV : forall e, value_of w inp fs e = ev w li en e) by (intros e; symmetry; apply value_ext; exact E).
    unfold se_field, holds. destruct (fa_cond a) as [e|]; cbn [is_some].
    - rewrite EV. destruct (ev w li en e) as [c| | |]; try reflexivity. cbn [bind]. destruct (bool_of c) as [[|]| | |]; try reflexivity; cbn [bind].
      + rewrite C, Ca, P. cbn [negb andb is_some]. rewrite B. destruct (unwrap_opt v) as [v0| | |]; try reflexivity. cbn [bind]. rewrite R'.
        destruct (se_type w p rf li None (sencode w p rf None k) en t v0) as [[b0 v1]| | |]; try reflexivity. cbn [bind]. rewrite IH.
        destruct (write_fields w p rf k inp l fs) as [bs| | |]; try reflexivity. cbn [bind]. rewrite app_assoc. reflexivity.
      + rewrite app_nil_r. rewrite IH. destruct (write_fields w p rf k inp l fs) as [bs| | |]; reflexivity.
    - rewrite B. cbn [bind]. rewrite R'.
      destruct (se_type w p rf li None (sencode w p rf None k) en t v) as [[b0 v1]| | |]; try reflexivity. cbn [bind]. rewrite IH.
      destruct (write_fields w p rf k inp l fs) as [bs| | |]; try reflexivity. cbn [bind]. rewrite app_assoc. reflexivity.
  Qed.

  Lemma refs_all items fs0 : Forall plain_field items -> forall fs, map fst fs = field_names items -> (forall n v, In (n, v) fs -> lookup n fs0 = Some v) -> forall en0,
    se_refs items fs0 en0 = Ok (rev fs ++ en0).
  Proof.
    induction 1 as [|[a t] l H _ IH]; intros fs N I en0; destruct fs as [|[n v] fs]; try discriminate N; [reflexivity|]. cbn [field_names map fst] in N. injection N as Nn N. subst n.
    destruct H as (Ca & P & _). cbn [fst] in *. cbn [se_refs]. rewrite Ca, P. cbn [is_some orb]. rewrite (I (fa_name a) v (or_introl eq_refl)). cbn [of_some bind].
    rewrite (IH fs N); [|intros n v' Hi; apply I; right; exact Hi]. cbn [rev]. rewrite <- app_assoc. reflexivity.
  Qed.
  Lemma calcs_none items en : Forall plain_field items -> se_calcs w li items en = Ok en.
  Proof. induction 1 as [|[a t] l (Ca & _) _ IH]; [reflexivity|]. cbn [fst] in Ca. cbn [se_calcs]. rewrite Ca. exact IH. Qed.
End Facts2.

(** ** C68 *)

Theorem C68_read : forall w p rf, world_suffixing w -> compiles p rf -> forall k n args d inp items l,
  p n = Some d -> bind_params w (d_params d) args [] = Ok inp ->
  d_ty d = TCont None false items -> fa_xs (d_attr d) = [] -> Forall plain_field items ->
  decode w p rf (S k) n args l = let! (vs, rest) := read_fields w p rf k inp items [] l in Ok (VStruct (fa_name (d_attr d)) vs, rest).
Proof.
  intros w p rf Hw Hp k n args d inp items l Hd Hi Ht Hx F. rewrite (decode_top w p rf Hw Hp k n args d inp l Hd Hi). unfold sd_top. rewrite Ht, Hx. cbn [rev sd_xs sd_limit].
  rewrite (read_fields_ok w p rf Hw Hp k inp items F). reflexivity.
Qed.
Print Assumptions C68_read.

Theorem C68_write : forall w p rf, compiles p rf -> forall k n args d inp items nm fs,
  p n = Some d -> bind_params w (d_params d) args [] = Ok inp ->
  d_ty d = TCont None false items -> fa_xs (d_attr d) = [] -> Forall plain_field items ->
  map fst fs = map (fun f => fa_name (fst f)) items ->
  encode w p rf (S k) n args (VStruct nm fs) = write_fields w p rf k inp items fs.
Proof.
  intros w p rf Hp k n args d inp items nm fs Hd Hi Ht Hx F N. rewrite (encode_top w p rf Hp k n args d inp _ Hd Hi). unfold se_top. rewrite Ht, Hx. cbn [se_xs se_limit]. unfold se_struct.
  destruct (plain_flat items F) as (-> & LN). destruct (proj1 Hp _ _ Hd) as ((_ & _ & W) & _). rewrite Ht in W. destruct W as (_ & ND). destruct (plain_flat items F) as (Fl & _). rewrite Fl, LN in ND.
  assert (ND' : NoDup (map fst fs)) by (rewrite N; exact ND).
  assert (E0 : (if existsb (fun f => negb (is_some (fa_calc (fst f))) && negb (fa_pad (fst f))) items then let! fs' := fields_of (VStruct nm fs) in se_refs items fs' [] else Ok []) = Ok (rev fs)).
  { destruct items as [|[a t] items]; [destruct fs; [reflexivity|discriminate N]|]. inversion F as [|? ? (Ca & P & _) _]; subst. cbn [fst] in Ca, P. cbn [existsb fst]. rewrite Ca, P. cbn [is_some negb andb orb fields_of bind].
    rewrite (refs_all _ fs F fs N); [rewrite app_nil_r; reflexivity|]. intros x v Hin. apply lookup_nodup; assumption. }
  rewrite E0. cbn [bind]. rewrite (calcs_none w inp items (rev fs) F). cbn [bind].
  assert (L : forall x, lookup x (rev fs) = lookup x fs).
  { intros x. rewrite <- (app_nil_r (rev fs)). destruct (lookup x fs) as [v|] eqn:El.
    - apply lookup_rev_in; [exact ND'|]. apply lookup_some_in. exact El.
    - rewrite lookup_rev_out; [apply lookup_nil|]. intros Hin. apply in_map_iff in Hin as ((x' & v) & <- & Hin). cbn [fst] in El. rewrite (lookup_nodup fs x' v ND' Hin) in El. discriminate El. }
  pose proof (write_fields_ok w p rf Hp k inp fs (rev fs) items L F [] []) as R. cbn [app] in R.
  destruct (se_items w (fun x => lookup x inp) None (map (se_item w p rf (fun x => lookup x inp) None (sencode w p rf None k)) items) (rev fs) false [] [] None) as [[b vs]|e| |]; cbn [bind] in *; destruct (write_fields w p rf k inp items fs); cbn [bind] in *; congruence.
Qed.
Print Assumptions C68_write.

(** Without conditions: the concatenation of the fields' bytes, each what the field's
    own type gives for the field's value. *)
Theorem C68_concatenation : forall w p rf, compiles p rf -> forall k n args d inp items nm fs,
  p n = Some d -> bind_params w (d_params d) args [] = Ok inp ->
  d_ty d = TCont None false items -> fa_xs (d_attr d) = [] -> Forall plain_field items -> Forall (fun f => fa_cond (fst f) = None) items ->
  map fst fs = map (fun f => fa_name (fst f)) items ->
  forall b, encode w p rf (S k) n args (VStruct nm fs) = Ok b <->
    exists pieces, b = concat pieces /\
      Forall2 (fun f piece => exists v, lookup (fa_name (fst f)) fs = Some v /\ write_one w p rf k inp fs (snd f) v = Ok piece) items pieces.
Proof.
  intros w p rf Hp k n args d inp items nm fs Hd Hi Ht Hx F U N b. rewrite (C68_write w p rf Hp k n args d inp items nm fs Hd Hi Ht Hx F N). clear Hd Ht F N. revert b.
  induction U as [|[a t] l Hc _ IH]; intros b.
  - cbn. split; [intros H; apply Ok_inj in H; subst; exists []; split; [reflexivity|constructor]|]. intros (ps & -> & H). inversion H. reflexivity.
  - cbn [fst] in Hc. cbn [write_fields]. rewrite Hc. cbn [holds is_some bind]. split.
    + intros H. bi H v Ev. bi H b1 E1. bi H b2 E2. apply Ok_inj in H. subst b. apply IH in E2 as (ps & -> & P). exists (b1 :: ps). split; [reflexivity|]. constructor; [|exact P].
      exists v. cbn [fst snd]. split; [destruct (lookup (fa_name a) fs); [apply Ok_inj in Ev; congruence|discriminate]|exact E1].
    + intros (ps & -> & H). inversion H as [|? piece ? ps' (v & V1 & V2) H' E1 E2]; subst. cbn [fst snd] in V1, V2. rewrite V1. cbn [of_some bind]. rewrite V2. cbn [bind].
      rewrite (proj2 (IH (concat ps')) (ex_intro _ ps' (conj eq_refl H'))). reflexivity.
Qed.
Print Assumptions C68_concatenation.

Definition parts_text : string := "import_ffi v32 as type; type raw(n: u8) = u8[n]; type point = container { x: u8, y: u16le };
type msg = container { kind: u8, n: u8, id: v32, data: raw(n), at: point, extra: u16 { kind == 1u8 } };".
Definition parts_val (kind n id : Z) (data : list Z) (x y : Z) (extra : option Z) : list (string * val) :=
  [("kind", VInt U8 kind); ("n", VInt U8 n); ("id", VInt I32 id); ("data", VTup (VArr (map (VInt U8) data))); ("at", VStruct "point" [("x", VInt U8 x); ("y", VInt U16 y)]); ("extra", VOpt (option_map (VInt U16) extra))].
Example C68_nonvacuous : let p := program_of parts_text in prog_ok p 20 (prelude_marks []) = true /\
  (exists d items, prog p "msg" = Some d /\ d_ty d = TCont None false items /\ fa_xs (d_attr d) = [] /\ d_params d = [] /\ Forall plain_field items /\
     map fst (parts_val 1 2 300 [8; 9] 5 6 (Some 7)) = map (fun f => fa_name (fst f)) items /\
     map (fun f => is_some (fa_cond (fst f))) items = [false; false; false; false; false; true]) /\
  (* the pieces *)
  encode prelude_world (prog p) 20 3 "raw" [VInt U8 2] (VTup (VArr [VInt U8 8; VInt U8 9])) = Ok [8; 9] /\
  encode prelude_world (prog p) 20 3 "point" [] (VStruct "point" [("x", VInt U8 5); ("y", VInt U16 6)]) = Ok [5; 6; 0] /\
  w_fenc prelude_world "v32" [] (VInt I32 300) = Ok [172; 2] /\
  (* and the whole *)
  encode prelude_world (prog p) 20 4 "msg" [] (VStruct "msg" (parts_val 1 2 300 [8; 9] 5 6 (Some 7))) = Ok [1; 2; 172; 2; 8; 9; 5; 6; 0; 0; 7] /\
  encode prelude_world (prog p) 20 4 "msg" [] (VStruct "msg" (parts_val 0 2 300 [8; 9] 5 6 None)) = Ok [0; 2; 172; 2; 8; 9; 5; 6; 0] /\
  decode prelude_world (prog p) 20 4 "msg" [] [1; 2; 172; 2; 8; 9; 5; 6; 0; 0; 7; 99] = Ok (VStruct "msg" (parts_val 1 2 300 [8; 9] 5 6 (Some 7)), [99]).
Proof.
  split; [vm_compute; reflexivity|]. split.
  - eexists. eexists. split; [vm_compute; reflexivity|]. split; [cbn [d_ty]; reflexivity|]. split; [reflexivity|]. split; [reflexivity|]. split; [repeat constructor|]. split; reflexivity.
  - repeat split; vm_compute; reflexivity.
Qed.
Print Assumptions C68_nonvacuous.
