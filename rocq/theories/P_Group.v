(** C71: fields grouped in a nested container are read and written as if they stood
    there themselves. *)
From Verif Require Import ScalarFacts DecRef EncRef RtWf RoundTrip World Sample Reenc CoderFacts P_Lengths P_Safe P_Evolve.
Open Scope string_scope. Open Scope Z_scope. Open Scope list_scope.

(** A field that is a container without declared length, condition, transforms. *)
Definition group (f : fattr * ty) (fields : list (fattr * ty)) : Prop :=
  fa_cond (fst f) = None /\ fa_pad (fst f) = false /\ fa_xs (fst f) = [] /\ fa_calc (fst f) = None /\ snd f = TCont None false fields.

(** [flat] is [grouped] with one group resolved. *)
Definition ungrouped (p : program) (grouped flat : string) (params : list Asg.param) (written : list (fattr * ty)) : Prop :=
  exists d d' len pre g fields post, p grouped = Some d /\ p flat = Some d' /\ d_params d = params /\ d_params d' = params /\
    fa_xs (d_attr d) = fa_xs (d_attr d') /\ fa_name (d_attr d) = grouped /\ fa_name (d_attr d') = flat /\ group g fields /\
    d_ty d = TCont len false (pre ++ g :: post) /\ d_ty d' = TCont len false (pre ++ fields ++ post) /\ written = pre ++ fields ++ post.

Definition rename_struct (n : string) (v : val) : val := match v with VStruct _ fs => VStruct n fs | v => v end.

Section Group.
  Variables (w : world) (p : program) (rf : nat) (inp : string -> option val).

  Lemma read_group rec g fields post : group g fields -> forall en l,
    sd_items w inp (map (sd_item w p rf inp rec) (g :: post)) en l = sd_items w inp (map (sd_item w p rf inp rec) (fields ++ post)) en l.
  Proof.
    intros (C & P & X & _ & T) en l. destruct g as [a t]. cbn [fst snd] in *. subst t. rewrite map_app, sd_items_seq. cbn [map sd_items]. unfold sd_field, sd_item at 1. cbn [fst snd]. rewrite C, X. cbn [rev sd_xs sd_complex]. rewrite P. cbn [sd_limit].
    change (map (fun f => (fst f, snd f, sd_complex w p rf inp rec (fst f) (snd f))) fields) with (map (sd_item w p rf inp rec) fields).
    destruct (sd_items w inp (map (sd_item w p rf inp rec) fields) en l) as [[vs l1]| | |]; reflexivity.
  Qed.
  Lemma read_group_in rec g fields pre post : group g fields -> forall en l,
    sd_items w inp (map (sd_item w p rf inp rec) (pre ++ g :: post)) en l = sd_items w inp (map (sd_item w p rf inp rec) (pre ++ fields ++ post)) en l.
  Proof.
    intros G en l. rewrite !(map_app _ pre), !(sd_items_seq w inp (map _ pre)). destruct (sd_items w inp (map (sd_item w p rf inp rec) pre) en l) as [[vs l1]| | |]; try reflexivity. cbn [bind]. rewrite (read_group rec g fields post G). reflexivity.
  Qed.

  Lemma items_seq its1 its2 en c : Forall item_ok its1 -> forall out vs0,
    se_items w inp None (its1 ++ its2) en c out vs0 None = let! (o, vs) := se_items w inp None its1 en c out vs0 None in se_items w inp None its2 en c o vs None.
  Proof.
    induction 1 as [|[[a t] k] its Hf _ IH]; intros out vs0; [reflexivity|]. cbn [app se_items]. unfold item_ok, no_blen in Hf. cbn [fst] in Hf.
    assert (P : forall (X : res ioerr val),
      (let! v := X in let! (b, (vs, n)) := se_field w inp None (a, t, k) en v c false in se_items w inp None (its ++ its2) en c (out ++ b) (vs0 ++ vs) None) =
      (let! (o, vs) := (let! v := X in let! (b, (vs, n)) := se_field w inp None (a, t, k) en v c false in se_items w inp None its en c (out ++ b) (vs0 ++ vs) None) in se_items w inp None its2 en c o vs None)).
    { intros [v| | |]; cbn [bind]; try reflexivity. destruct (se_field w inp None (a, t, k) en v c false) as [[b [vs n]]| | |]; cbn [bind]; try reflexivity. apply IH. }
    destruct (fa_calc a) as [e|]; [rewrite Hf|]; apply P.
  Qed.
  Lemma items_ok erec l : Forall no_blen l -> Forall item_ok (map (se_item w p rf inp None erec) l).
  Proof. intros H. apply Forall_map. eapply Forall_impl; [|exact H]. intros [a t] Hf. exact Hf. Qed.

  Lemma write_group erec g fields pre post : group g fields -> Forall no_blen pre -> Forall no_blen fields -> forall en out vs0,
    se_items w inp None (map (se_item w p rf inp None erec) (pre ++ g :: post)) en false out vs0 None = se_items w inp None (map (se_item w p rf inp None erec) (pre ++ fields ++ post)) en false out vs0 None.
  Proof.
    intros (C & P & X & K & T) HP HF en out vs0. rewrite !(map_app _ pre), !(items_seq _ _ _ _ (items_ok erec pre HP)).
    destruct (se_items w inp None (map (se_item w p rf inp None erec) pre) en false out vs0 None) as [[o vs]| | |]; try reflexivity. cbn [bind].
    rewrite map_app, (items_seq _ _ _ _ (items_ok erec fields HF)), (se_items_acc w inp None _ (items_ok erec fields HF)).
    destruct g as [a t]. cbn [fst snd] in *. subst t. cbn [map]. unfold se_item at 1. cbn [fst snd se_items]. rewrite K. cbn [is_cont orb bind]. unfold se_field. rewrite C, X. cbn [se_xs bind se_complex]. rewrite P. cbn [se_limit bind].
    change (map (fun f => (fst f, snd f, se_complex w p rf inp None erec (fst f) (snd f))) fields) with (map (se_item w p rf inp None erec) fields).
    destruct (se_items w inp None (map (se_item w p rf inp None erec) fields) en false [] [] None) as [[b vs1]| | |]; reflexivity.
  Qed.

  Lemma group_flat g fields pre post : group g fields -> flatten_items (pre ++ g :: post) = flatten_items (pre ++ fields ++ post).
  Proof.
    intros (_ & _ & _ & _ & T). unfold flatten_items. rewrite !flat_map_app. cbn [flat_map]. f_equal. f_equal. unfold flatten_field at 1. rewrite T. cbn [is_cont]. apply flatten_ty_cont.
  Qed.
End Group.

(** C71. A group is transparent: the type with the group reads and writes exactly what
    the type without it does, failures included; the generated structs have the same
    fields. *)
Theorem C71_read : forall w p rf, world_suffixing w -> compiles p rf -> forall grouped flat params written, ungrouped p grouped flat params written ->
  forall k args l, decode w p rf k grouped args l = let! (v, rest) := decode w p rf k flat args l in Ok (rename_struct grouped v, rest).
Proof.
  intros w p rf Hw Hp grouped flat params written (d & d' & len & pre & g & fields & post & E1 & E2 & P1 & P2 & X & N1 & N2 & G & T1 & T2 & _) [|k] args l; [reflexivity|].
  destruct (decode_refines w p rf Hw (proj1 Hp) (S k) grouped args l) as (-> & _). destruct (decode_refines w p rf Hw (proj1 Hp) (S k) flat args l) as (-> & _).
  cbn [sdecode]. rewrite E1, E2. cbn [of_some bind]. rewrite P1, P2. destruct (bind_params w params args []) as [inp| | |]; try reflexivity. cbn [bind]. unfold sd_top. rewrite X, N1, N2, T1, T2.
  revert l. induction (rev (fa_xs (d_attr d'))) as [|x xs IH]; intros l; cbn [sd_xs].
  - assert (E : forall en l0, sd_limit w (fun x => lookup x inp) en len (sd_items w (fun x => lookup x inp) (map (sd_item w p rf (fun x => lookup x inp) (sdecode w p rf k)) (pre ++ g :: post)) []) l0
        = sd_limit w (fun x => lookup x inp) en len (sd_items w (fun x => lookup x inp) (map (sd_item w p rf (fun x => lookup x inp) (sdecode w p rf k)) (pre ++ fields ++ post)) []) l0).
    { intros en l0. unfold sd_limit. destruct len; [|apply read_group_in, G]. destruct (ev w (fun x => lookup x inp) en e) as [v| | |]; try reflexivity. cbn [bind]. destruct (limit_of v) as [n| | |]; try reflexivity. cbn [bind]. rewrite (read_group_in w p rf _ _ g fields pre post G). reflexivity. }
    rewrite E. destruct (sd_limit _ _ [] len _ l) as [[vs r]| | |]; reflexivity.
  - destruct (match x_cond x with Some e => _ | None => _ end) as [[|]| | |]; try reflexivity; cbn [bind]; [|apply IH].
    destruct (mapM (ev w (fun x => lookup x inp) []) (x_args x)) as [vs| | |]; try reflexivity. cbn [bind]. destruct (w_xdec w (x_name x) vs l) as [[plain r]| | |]; try reflexivity. cbn [bind].
    rewrite IH. match goal with |- context [sd_xs ?a ?b ?c ?d ?e ?f] => destruct (sd_xs a b c d e f) as [[v r1]| | |] end; reflexivity.
Qed.
Print Assumptions C71_read.

Lemma xs_bytes {A B} w inp en xs : forall (f : res ioerr (list Z * A)) (g : res ioerr (list Z * B)), (let! (b, _) := f in Ok b) = (let! (b, _) := g in Ok b) ->
  (let! (b, _) := se_xs w inp None en xs f in Ok b) = (let! (b, _) := se_xs w inp None en xs g in Ok b).
Proof.
  induction xs as [|x xs IH]; intros f g H; [exact H|]. cbn [se_xs]. destruct (match x_cond x with Some e => _ | None => _ end) as [[|]| | |]; try reflexivity; cbn [bind]; [|apply IH, H].
  destruct (mapM (ev w inp en) (x_args x)) as [vs| | |]; try reflexivity. cbn [bind]. specialize (IH f g H). unfold refuse.
  destruct (se_xs w inp None en xs f) as [[b1 a1]|e1| |], (se_xs w inp None en xs g) as [[b2 a2]|e2| |]; cbn [bind] in *; try congruence. assert (b1 = b2) by congruence. subst b2. destruct (w_xenc w (x_name x) vs b1); reflexivity.
Qed.

(** Fields whose value is the byte length of a later container ([blen]) are left out. *)
Theorem C71_write : forall w p rf, compiles p rf -> forall grouped flat params written, ungrouped p grouped flat params written ->
  Forall no_blen written ->
  forall k args n m fs, encode w p rf k grouped args (VStruct n fs) = encode w p rf k flat args (VStruct m fs).
Proof.
  intros w p rf Hp grouped flat params written (d & d' & len & pre & g & fields & post & E1 & E2 & P1 & P2 & X & N1 & N2 & G & T1 & T2 & ->) HN [|k] args n m fs; [reflexivity|].
  apply Forall_app in HN as (HP & HN). apply Forall_app in HN as (HF & _).
  rewrite !(encode_refines w p rf (proj2 Hp)). cbn [sencode]. rewrite E1, E2. cbn [of_some bind]. rewrite P1, P2. destruct (bind_params w params args []) as [inp| | |]; try reflexivity. cbn [bind]. unfold se_top. rewrite X, N1, N2, T1, T2.
  assert (E : se_struct w p rf (fun x => lookup x inp) None (sencode w p rf None k) (pre ++ g :: post) (VStruct n fs) = se_struct w p rf (fun x => lookup x inp) None (sencode w p rf None k) (pre ++ fields ++ post) (VStruct m fs)).
  { unfold se_struct. rewrite (group_flat g fields pre post G). cbn [fields_of]. match goal with |- context [if ?b then _ else _] => destruct b end; cbn [bind].
    - destruct (se_refs (flatten_items (pre ++ fields ++ post)) fs []) as [en| | |]; try reflexivity. cbn [bind]. destruct (se_calcs w (fun x => lookup x inp) (flatten_items (pre ++ fields ++ post)) en) as [en'| | |]; try reflexivity. cbn [bind]. apply write_group; assumption.
    - destruct (se_calcs w (fun x => lookup x inp) (flatten_items (pre ++ fields ++ post)) []) as [en'| | |]; try reflexivity. cbn [bind]. apply write_group; assumption. }
  apply xs_bytes. rewrite E. match goal with |- context [se_limit ?a ?b ?c ?d ?e ?f ?g] => destruct (se_limit a b c d e f g) as [[b0 vs]| | |] end; reflexivity.
Qed.
Print Assumptions C71_write.

Definition groups_text : string := "type g1 = container { n: u8, head: container { k: u8 = n + 1u8, d: u8[n] }, tail: u16 { n == 2u8 } };
type g2 = container { n: u8, k: u8 = n + 1u8, d: u8[n], tail: u16 { n == 2u8 } };".
Definition group_fs (n k : Z) (d : list Z) (tail : option Z) : list (string * val) := [("n", VInt U8 n); ("k", VInt U8 k); ("d", VArr (map (VInt U8) d)); ("tail", VOpt (option_map (VInt U16) tail))].
Example C71_nonvacuous : let p := program_of groups_text in prog_ok p 20 (prelude_marks []) = true /\
  (exists written, ungrouped (prog p) "g1" "g2" [] written /\ Forall no_blen written /\ List.length written = 4%nat) /\
  encode prelude_world (prog p) 20 3 "g1" [] (VStruct "g1" (group_fs 2 0 [8; 9] (Some 258))) = Ok [2; 3; 8; 9; 1; 2] /\
  encode prelude_world (prog p) 20 3 "g2" [] (VStruct "g2" (group_fs 2 0 [8; 9] (Some 258))) = Ok [2; 3; 8; 9; 1; 2] /\
  decode prelude_world (prog p) 20 3 "g1" [] [2; 3; 8; 9; 1; 2; 3] = Ok (VStruct "g1" (group_fs 2 3 [8; 9] (Some 258)), [3]) /\
  decode prelude_world (prog p) 20 3 "g2" [] [2; 3; 8; 9; 1; 2; 3] = Ok (VStruct "g2" (group_fs 2 3 [8; 9] (Some 258)), [3]).
Proof.
  split; [vm_compute; reflexivity|]. split; [|repeat split; vm_compute; reflexivity].
  pose (l := program_of groups_text). set (it := match prog l "g1" with Some {| d_ty := TCont _ _ i |} => i | _ => [] end). set (fl := match prog l "g2" with Some {| d_ty := TCont _ _ i |} => i | _ => [] end).
  vm_compute in it, fl. exists fl. split; [|split; [subst fl; repeat constructor|reflexivity]].
  eexists _, _, None, (firstn 1 it), (nth 1 it ({| fa_name := ""; fa_calc := None; fa_cond := None; fa_xs := []; fa_pad := false |}, TBool)), (firstn 2 (skipn 1 fl)), (skipn 2 it).
  split; [vm_compute; reflexivity|]. split; [vm_compute; reflexivity|]. repeat split; vm_compute; reflexivity.
Qed.
Print Assumptions C71_nonvacuous.

From Verif Require P_Types Program Front.
(** In the source the names of a group's fields are visible inside the group only: not
    every flat declaration can be grouped. *)
Theorem C71_scope : let spec (group : bool) : string := if group then "type g = container { head: container { k: u8 }, tail: u16 { k == 2u8 } };" else "type g = container { k: u8, tail: u16 { k == 2u8 } };" in
  P_Types.analyse P_Types.string_env P_Types.no_resolver 20 2 (Tokens.bs (spec true)) = Err (Front.XUnresolvedVar (Tokens.bs "k")) /\
  exists p, P_Types.analyse P_Types.string_env P_Types.no_resolver 20 2 (Tokens.bs (spec false)) = Ok p.
Proof. split; [vm_compute; reflexivity|]. eexists. vm_compute. reflexivity. Qed.
Print Assumptions C71_scope.
