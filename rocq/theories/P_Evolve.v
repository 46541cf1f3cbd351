(** C69: fields added at the end of a container, and readers that do not know them. *)
From Verif Require Import ScalarFacts DecRef EncRef RtWf RoundTrip World Sample Reenc CoderFacts ValidSpec Valid Sizes SizeFacts P_Coder P_Lengths P_Safe.
Open Scope string_scope. Open Scope Z_scope. Open Scope list_scope.

(** Two versions of a container: the same parameters and fields, then more fields.  The
    fields may be of any kind (nested, conditional, transformed, calculated, arrays,
    padding); the containers have no declared length and no transforms. *)
Definition extends (p : program) (old new : string) (items more : list (fattr * ty)) (params : list param) : Prop :=
  exists d d', p old = Some d /\ p new = Some d' /\ d_params d = params /\ d_params d' = params /\
    fa_xs (d_attr d) = [] /\ fa_xs (d_attr d') = [] /\ fa_name (d_attr d) = old /\ fa_name (d_attr d') = new /\
    d_ty d = TCont None false items /\ d_ty d' = TCont None false (items ++ more).

Lemma sd_items_seq w inputs its1 its2 : forall en l, sd_items w inputs (its1 ++ its2) en l =
  let! (vs1, l1) := sd_items w inputs its1 en l in let! (vs2, rest) := sd_items w inputs its2 (rev vs1 ++ en) l1 in Ok (vs1 ++ vs2, rest).
Proof.
  induction its1 as [|f its1 IH]; intros en l; cbn [app sd_items bind rev].
  - destruct (sd_items w inputs its2 en l) as [[vs r]| | |]; reflexivity.
  - destruct (sd_field w inputs f en l) as [[v l1]| | |]; try reflexivity. cbn [bind]. rewrite IH. destruct (sd_items w inputs its1 (rev v ++ en) l1) as [[vs1 l2]| | |]; try reflexivity. cbn [bind].
    rewrite rev_app_distr, <- app_assoc. destruct (sd_items w inputs its2 (rev vs1 ++ rev v ++ en) l2) as [[vs2 r]| | |]; try reflexivity. cbn [bind]. rewrite app_assoc. reflexivity.
Qed.

Lemma any_sizes w : world_suffixing w -> world_sizes w (fun _ => anything).
Proof. intros (Hf & Hx). split; [intros f vs; apply suffixing_any, Hf|intros f vs v b _; apply within_any, Zle_0_nat]. Qed.

Section Evolve.
  Variables (w : world) (p : program) (rf : nat).
  Hypothesis Hw : world_suffixing w.
  Hypothesis Hp : compiles p rf.

  Lemma items_suffix k inp items en l vs rest : sd_items w inp (map (sd_item w p rf inp (sdecode w p rf k)) items) en l = Ok (vs, rest) -> len rest <= len l.
  Proof.
    intros E. assert (T : forall n vs0, foreign_of p n = None -> takes_within anything (sdecode w p rf k n vs0)).
    { intros n vs0 _. apply suffixing_any. exact (proj2 (decode_refines w p rf Hw (proj1 Hp) k n vs0 [])). }
    assert (C : Forall (fun f => forall en0, takes_within (if fa_pad (fst f) then pad_size (snd f) else ty_size p rf (fun _ => anything) (fun _ => anything) (snd f)) (sd_complex w p rf inp (sdecode w p rf k) (fst f) (snd f) en0)) items).
    { apply Forall_forall. intros f _ en0. apply complex_takes; try assumption. apply any_sizes, Hw. }
    eapply items_take in E; try eassumption. destruct E as (n & N1 & _ & N3). lia.
  Qed.

  Lemma old_new old new items more params k args l : extends p old new items more params ->
    decode w p rf (S k) new args l = (let! inp := bind_params w params args [] in
      let! (vs1, mid) := sd_items w (fun x => lookup x inp) (map (sd_item w p rf (fun x => lookup x inp) (sdecode w p rf k)) items) [] l in
      let! (vs2, rest) := sd_items w (fun x => lookup x inp) (map (sd_item w p rf (fun x => lookup x inp) (sdecode w p rf k)) more) (rev vs1) mid in
      Ok (VStruct new (vs1 ++ vs2), rest)) /\
    decode w p rf (S k) old args l = (let! inp := bind_params w params args [] in
      let! (vs1, mid) := sd_items w (fun x => lookup x inp) (map (sd_item w p rf (fun x => lookup x inp) (sdecode w p rf k)) items) [] l in
      Ok (VStruct old vs1, mid)).
  Proof.
    intros (d & d' & E1 & E2 & P1 & P2 & X1 & X2 & N1 & N2 & T1 & T2).
    destruct (decode_refines w p rf Hw (proj1 Hp) (S k) new args l) as (-> & _). destruct (decode_refines w p rf Hw (proj1 Hp) (S k) old args l) as (-> & _).
    cbn [sdecode]. rewrite E1, E2. cbn [of_some bind]. rewrite P1, P2. destruct (bind_params w params args []) as [inp| | |]; try (split; reflexivity). cbn [bind].
    unfold sd_top. rewrite X1, X2, N1, N2, T1, T2. cbn [rev sd_xs sd_limit]. split; [|reflexivity]. rewrite map_app, sd_items_seq.
    destruct (sd_items w (fun x => lookup x inp) (map (sd_item w p rf (fun x => lookup x inp) (sdecode w p rf k)) items) [] l) as [[vs1 mid]| | |]; try reflexivity. cbn [bind]. rewrite app_nil_r.
    match goal with |- context [sd_items ?a ?b ?c ?d ?e] => destruct (sd_items a b c d e) as [[vs2 r]| | |]; reflexivity end.
  Qed.
End Evolve.

(** C69. What the new reader reads, the old reader reads too: the fields it knows, with
    the same values.  It leaves the rest, beginning with the bytes of the added fields. *)
Theorem C69_old_reader : forall w p rf, world_suffixing w -> compiles p rf -> forall old new items more params, extends p old new items more params ->
  forall k args l v rest, decode w p rf k new args l = Ok (v, rest) ->
  exists known added extra, v = VStruct new (known ++ added) /\ decode w p rf k old args l = Ok (VStruct old known, extra ++ rest).
Proof.
  intros w p rf Hw Hp old new items more params X [|k] args l v rest E; [discriminate E|]. destruct (old_new w p rf Hw Hp old new items more params k args l X) as (EN & EO).
  pose proof (proj2 (decode_refines w p rf Hw (proj1 Hp) (S k) new args l)) as SN. pose proof (proj2 (decode_refines w p rf Hw (proj1 Hp) (S k) old args l)) as SO.
  destruct (decode_refines w p rf Hw (proj1 Hp) (S k) new args l) as (RN & _). destruct (decode_refines w p rf Hw (proj1 Hp) (S k) old args l) as (RO & _).
  pose proof E as E'. rewrite EN in E'. bi E' inp Ei. bi E' y Ey. destruct y as [vs1 mid]. bi E' z Ez. destruct z as [vs2 r]. apply Ok_inj in E'. injection E' as <- <-.
  rewrite Ei in EO. cbn [bind] in EO. rewrite Ey in EO. cbn [bind] in EO. pose proof (items_suffix w p rf Hw Hp k _ more _ _ _ _ Ez) as L.
  rewrite EO in RO. symmetry in RO. rewrite E in RN. symmetry in RN. destruct (SO _ _ _ RO) as (i & Hi & Mi). destruct (SN _ _ _ RN) as (j & Hj & Rj).
  exists vs1, vs2, (firstn (j - i) mid). split; [reflexivity|]. rewrite EO. do 2 f_equal. rewrite <- (firstn_skipn (j - i) mid) at 1. f_equal. subst mid r.
  assert (L' : (List.length (skipn j l) <= List.length (skipn i l))%nat) by (apply Nat2Z.inj_le; exact L). rewrite !skipn_length in L'. rewrite skipn_skipn. f_equal. lia.
Qed.
Print Assumptions C69_old_reader.

(** What the old reader refuses, the new reader refuses, in the same way. *)
Theorem C69_same_refusal : forall w p rf, world_suffixing w -> compiles p rf -> forall old new items more params, extends p old new items more params ->
  forall k args l e, decode w p rf k old args l = Err e -> decode w p rf k new args l = Err e.
Proof.
  intros w p rf Hw Hp old new items more params X [|k] args l e E; [discriminate E|]. destruct (old_new w p rf Hw Hp old new items more params k args l X) as (EN & EO). rewrite EO in E. rewrite EN.
  destruct (bind_params w params args []) as [inp| | |]; try discriminate E; [|exact E]. cbn [bind] in *.
  match goal with |- context [sd_items ?a ?b ?c ?d ?e] => destruct (sd_items a b c d e) as [[vs2 r]| | |] end; try discriminate E. exact E.
Qed.
Print Assumptions C69_same_refusal.

(** A message of the new kind, sent to an old reader. *)
Theorem C69_new_message : forall w g mk p rf, world_laws w g mk -> world_suffixing w -> rt_program p mk -> compiles p rf ->
  forall old new items more params, extends p old new items more params ->
  forall args v, valid w p rf g new args v ->
  exists k0 b, forall k rest, (k0 <= k)%nat -> (mk_ty mk new = true -> rest = []) ->
    encode w p rf k new args v = Ok b /\
    exists known added extra, v = VStruct new (known ++ added) /\ decode w p rf k old args (b ++ rest) = Ok (VStruct old known, extra ++ rest).
Proof.
  intros w g mk p rf L Hw Rt Hp old new items more params X args v V.
  assert (Fo : foreign_of p new = None) by (destruct X as (d & d' & _ & E2 & _ & _ & _ & _ & _ & _ & _ & T2); unfold foreign_of; rewrite E2; destruct d' as [da dt dp]; cbn [d_ty] in T2; subst dt; reflexivity).
  destruct (valid_roundtrip w g mk p rf L Hw Rt Hp new args v Fo V) as (k0 & b & RT). exists k0, b. intros k rest Hk Hr. destruct (RT k rest Hk Hr) as (E & D). split; [exact E|].
  exact (C69_old_reader w p rf Hw Hp old new items more params X k args _ _ _ D).
Qed.
Print Assumptions C69_new_message.

(** A message of the old kind, read by a new reader whose added fields are conditional:
    where their conditions are false of the known fields (a version number, say), the
    message is read, and the added fields are absent. *)
Definition absent (l : list (fattr * ty)) : list (string * val) := flat_map (fun f => map (fun n => (n, VOpt None)) (leaf_names (flatten_field f))) l.
Theorem C69_old_message : forall w p rf, world_suffixing w -> compiles p rf -> forall old new items more params, extends p old new items more params ->
  forall k args inp l known rest, bind_params w params args [] = Ok inp -> decode w p rf k old args l = Ok (VStruct old known, rest) ->
  Forall (fun f => fa_pad (fst f) = false /\ exists e, fa_cond (fst f) = Some e /\
    forall seen, (forall n v, lookup n (rev known) = Some v -> seen n = Some v) -> eval w (fun n => lookup n inp) seen e = Ok (VBool false)) more ->
  NoDup (map fst (rev known ++ absent more)) ->
  decode w p rf k new args l = Ok (VStruct new (known ++ absent more), rest).
Proof.
  intros w p rf Hw Hp old new items more params X [|k] args inp l known rest Ei E F ND; [discriminate E|]. destruct (old_new w p rf Hw Hp old new items more params k args l X) as (EN & EO). rewrite EO in E. rewrite EN, Ei. rewrite Ei in E. cbn [bind] in *.
  bi E y Ey. destruct y as [vs1 mid]. apply Ok_inj in E. injection E as -> ->. rewrite Ey. cbn [bind]. clear EN EO Ey X.
  assert (G : forall seen l0, (forall n v, lookup n (rev known) = Some v -> lookup n seen = Some v) -> (forall n, In n (map fst (absent more)) -> lookup n (rev known) = None) ->
     sd_items w (fun x => lookup x inp) (map (sd_item w p rf (fun x => lookup x inp) (sdecode w p rf k)) more) seen l0 = Ok (absent more, l0)).
  { clear ND. induction F as [|[a t] more (P & e & C & Ev) _ IH]; intros seen l0 S D; [reflexivity|]. cbn [fst snd] in *. cbn [map sd_items absent flat_map]. unfold sd_field, sd_item at 1. cbn [fst snd]. rewrite C. unfold ev. rewrite (Ev (fun n => lookup n seen) S). cbn [bind]. rewrite P. cbn [bool_of bind].
    rewrite IH; [reflexivity| |intros n Hn; apply D; cbn [absent flat_map]; rewrite map_app; apply in_or_app; right; exact Hn].
    intros n v Hv. rewrite lookup_app. destruct (lookup n (rev (all_none (leaf_names (flatten_field (a, t)))))) as [x|] eqn:El; [|apply S, Hv].
    exfalso. apply lookup_some_in in El. apply in_rev in El. assert (Hn : In n (map fst (absent ((a, t) :: more)))).
    { cbn [absent flat_map]. rewrite map_app. apply in_or_app. left. apply in_map_iff. exists (n, x). split; [reflexivity|exact El]. }
    rewrite (D n Hn) in Hv. discriminate Hv. }
  rewrite G; [reflexivity|auto|]. intros n Hn. destruct (lookup n (rev known)) as [x|] eqn:El; [|reflexivity]. exfalso. apply lookup_some_in in El. rewrite map_app in ND.
  apply (in_map fst) in El. cbn [fst] in El. revert El Hn ND. generalize (map fst (rev known)) (map fst (absent more)). clear. intros a b Ha Hb ND. induction a as [|x a IH]; [destruct Ha|]. cbn [app] in ND. inversion ND as [|? ? N1 N2]; subst. destruct Ha as [->|Ha]; [apply N1, in_or_app; right; exact Hb|exact (IH Ha N2)].
Qed.
Print Assumptions C69_old_message.

Definition versions_text : string := "type v1 = container { version: u8, n: u8, data: u8[n] };
type v2 = container { version: u8, n: u8, data: u8[n], flags: u16 { version >= 2u8 }, note: u8[n] { version >= 2u8 } };".
Definition v1_val (version : Z) (data : list Z) : list (string * val) := [("version", VInt U8 version); ("n", VInt U8 (len data)); ("data", VArr (map (VInt U8) data))].
Example C69_nonvacuous : let p := program_of versions_text in prog_ok p 20 (prelude_marks []) = true /\
  (exists items more, extends (prog p) "v1" "v2" items more [] /\ List.length items = 3%nat /\ List.length more = 2%nat /\
     forall data, Forall (fun f => fa_pad (fst f) = false /\ exists e, fa_cond (fst f) = Some e /\
       forall seen, (forall n v, lookup n (rev (v1_val 1 data)) = Some v -> seen n = Some v) -> eval prelude_world (fun n => lookup n []) seen e = Ok (VBool false)) more /\
       NoDup (map fst (rev (v1_val 1 data) ++ absent more))) /\
  decode prelude_world (prog p) 20 3 "v2" [] [2; 1; 9; 0; 7; 8; 55] = Ok (VStruct "v2" (v1_val 2 [9] ++ [("flags", VOpt (Some (VInt U16 7))); ("note", VOpt (Some (VArr [VInt U8 8])))]), [55]) /\
  decode prelude_world (prog p) 20 3 "v1" [] [2; 1; 9; 0; 7; 8; 55] = Ok (VStruct "v1" (v1_val 2 [9]), [0; 7; 8; 55]) /\
  decode prelude_world (prog p) 20 3 "v1" [] [1; 1; 9; 55] = Ok (VStruct "v1" (v1_val 1 [9]), [55]) /\
  decode prelude_world (prog p) 20 3 "v2" [] [1; 1; 9; 55] = Ok (VStruct "v2" (v1_val 1 [9] ++ [("flags", VOpt None); ("note", VOpt None)]), [55]) /\
  decode prelude_world (prog p) 20 3 "v1" [] [1; 2; 9] = Err EEof /\ decode prelude_world (prog p) 20 3 "v2" [] [1; 2; 9] = Err EEof.
Proof.
  split; [vm_compute; reflexivity|]. split; [|repeat split; vm_compute; reflexivity].
  pose (l := program_of versions_text). set (it := match prog l "v1" with Some {| d_ty := TCont _ _ i |} => i | _ => [] end). set (mo := match prog l "v2" with Some {| d_ty := TCont _ _ i |} => skipn 3 i | _ => [] end).
  exists it, mo. vm_compute in it, mo. split.
  - do 2 eexists. split; [vm_compute; reflexivity|]. split; [vm_compute; reflexivity|]. repeat split.
  - split; [reflexivity|]. split; [reflexivity|]. intros data. split.
    + repeat constructor; (eexists; split; [reflexivity|]; intros seen S; cbn; rewrite (S "version" (VInt U8 1) eq_refl); reflexivity).
    + cbn. repeat constructor; cbn; intuition discriminate.
Qed.
Print Assumptions C69_nonvacuous.
