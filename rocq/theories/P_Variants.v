(** C70: variants added to tagged containers and enums. *)
From Verif Require Import ScalarFacts DecRef EncRef RtWf RoundTrip World Sample Reenc CoderFacts P_Lengths P_Safe.
Open Scope string_scope. Open Scope Z_scope. Open Scope list_scope.

(** ** Tagged containers *)

(** The first variant whose condition, an expression over the type's arguments, holds. *)
Definition condition (w : world) (inp : list (string * val)) (a : fattr) (b : bool) : Prop :=
  match fa_cond a with None => b = true | Some e => eval w (fun n => lookup n inp) (fun _ => None) e = Ok (VBool b) end.
Definition selected (w : world) (inp : list (string * val)) (variants : list (fattr * ty)) (f : fattr * ty) : Prop :=
  exists pre post, variants = pre ++ f :: post /\ Forall (fun g => condition w inp (fst g) false) pre /\ condition w inp (fst f) true.
(** The same variant, of the new type. *)
Definition retag (new : string) (v : val) : val :=
  match v with VVariant _ d x => VVariant new d x | VVariantS _ d fs => VVariantS new d fs | v => v end.
Definition tagged_with (n : string) (v : val) : Prop := match v with VVariant m _ _ | VVariantS m _ _ => m = n | _ => False end.

Definition more_variants (p : program) (old new : string) (items more : list (fattr * ty)) (params : list param) : Prop :=
  exists d d' len, p old = Some d /\ p new = Some d' /\ d_params d = params /\ d_params d' = params /\
    fa_xs (d_attr d) = [] /\ fa_xs (d_attr d') = [] /\ fa_name (d_attr d) = old /\ fa_name (d_attr d') = new /\
    d_ty d = TCont len true items /\ d_ty d' = TCont len true (items ++ more).

Section Tagged.
  Variables (w : world) (p : program) (rf : nat) (inp : list (string * val)).
  Notation li := (fun n => lookup n inp).
  Lemma condition_ok a b : condition w inp a b -> (match fa_cond a with Some e => let! v := ev w li [] e in bool_of v | None => Ok true end) = Ok b.
  Proof.
    unfold condition, ev. destruct (fa_cond a) as [e|]; [|intros ->; reflexivity]. intros H.
    rewrite (eval_ext w li (fun n => lookup n []) (fun _ => None)) by reflexivity. rewrite H. reflexivity.
  Qed.
  Lemma read_selected rec old new items more f l : selected w inp items f ->
    sd_variants w p rf li rec new (items ++ more) l = (let! (v, rest) := sd_variants w p rf li rec old items l in Ok (retag new v, rest)).
  Proof.
    intros (pre & post & -> & F & C). induction F as [|[a t] pre H _ IH]; cbn [app sd_variants].
    - destruct f as [a t]. cbn [fst] in C. rewrite (condition_ok _ _ C). cbn [bind].
      destruct (sd_xs w li [] (rev (fa_xs a)) (sd_complex w p rf li rec a t []) l) as [[vs r]| | |]; try reflexivity. cbn [bind]. destruct (is_cont t); [reflexivity|]. destruct vs as [|[n v] vs]; reflexivity.
    - cbn [fst] in H. rewrite (condition_ok _ _ H). cbn [bind]. exact IH.
  Qed.
  Lemma write_selected erec old new items more f v : selected w inp items f -> tagged_with old v ->
    (let! (b, _) := se_variants w p rf li None erec new (items ++ more) (retag new v) in Ok b) = (let! (b, _) := se_variants w p rf li None erec old items v in Ok b).
  Proof.
    intros (pre & post & -> & F & C) T. induction F as [|[a t] pre H _ IH]; cbn [app se_variants].
    - destruct f as [a t]. cbn [fst] in C. rewrite (condition_ok _ _ C). cbn [bind].
      destruct v as [| | | | | | | | | | |m d x|m d fs]; try contradiction T; cbn [tagged_with] in T; subst; cbn [retag]; rewrite !String.eqb_refl.
      + destruct (String.eqb (fa_name a) d); [|reflexivity]. destruct (is_cont t); [reflexivity|].
        match goal with |- context [se_xs ?a ?b ?c ?d ?e ?f] => destruct (se_xs a b c d e f) as [[b0 vs]| | |] end; try reflexivity. cbn [bind]. destruct vs as [|[? ?] ?]; reflexivity.
      + destruct (String.eqb (fa_name a) d); [|reflexivity]. destruct t; try reflexivity.
        match goal with |- context [mapM ?a ?b] => destruct (mapM a b) as [en| | |] end; try reflexivity. cbn [bind].
        match goal with |- context [se_calcs ?a ?b ?c ?d] => destruct (se_calcs a b c d) as [en'| | |] end; try reflexivity. cbn [bind].
        match goal with |- context [se_items ?a ?b ?c ?d ?e ?f ?g ?h ?i] => destruct (se_items a b c d e f g h i) as [[b0 vs]| | |] end; reflexivity.
    - cbn [fst] in H. rewrite (condition_ok _ _ H). cbn [bind]. exact IH.
  Qed.
End Tagged.

Section Tagged2.
  Variables (w : world) (p : program) (rf : nat).
  Hypothesis Hw : world_suffixing w.
  Hypothesis Hp : compiles p rf.

  Lemma limit_map {A B} (g : A -> B) inp len (f f' : list Z -> res ioerr (A * list Z)) (h : list Z -> res ioerr (B * list Z)) :
    (forall l, h l = let! (v, rest) := f l in Ok (g v, rest)) -> forall l,
    sd_limit w inp [] len h l = let! (v, rest) := sd_limit w inp [] len f l in Ok (g v, rest).
  Proof.
    intros E l. unfold sd_limit. destruct len as [e|]; [|apply E]. destruct (ev w inp [] e) as [v| | |]; try reflexivity. cbn [bind]. destruct (limit_of v) as [n| | |]; try reflexivity. cbn [bind]. rewrite E.
    destruct (f (firstn n l)) as [[a r]| | |]; reflexivity.
  Qed.
End Tagged2.

(** C70 (tagged containers). With a variant selected among the old ones, the new type
    reads and writes what the old one does: variants may be added at the end. *)
Theorem C70_tagged_read : forall w p rf, world_suffixing w -> compiles p rf -> forall old new items more params, more_variants p old new items more params ->
  forall args inp f, bind_params w params args [] = Ok inp -> selected w inp items f ->
  forall k l, decode w p rf k new args l = let! (v, rest) := decode w p rf k old args l in Ok (retag new v, rest).
Proof.
  intros w p rf Hw Hp old new items more params (d & d' & len & E1 & E2 & P1 & P2 & X1 & X2 & N1 & N2 & T1 & T2) args inp f Ei Sf [|k] l; [reflexivity|].
  destruct (decode_refines w p rf Hw (proj1 Hp) (S k) new args l) as (-> & _). destruct (decode_refines w p rf Hw (proj1 Hp) (S k) old args l) as (-> & _).
  cbn [sdecode]. rewrite E1, E2. cbn [of_some bind]. rewrite P1, P2, Ei. cbn [bind]. unfold sd_top. rewrite X1, X2, N1, N2, T1, T2. cbn [rev sd_xs].
  apply limit_map; [exact (sd_variants w p rf (fun x => lookup x inp) (sdecode w p rf k) old items)|]. intros l0. apply (read_selected w p rf inp _ old new items more f l0 Sf).
Qed.
Print Assumptions C70_tagged_read.
Theorem C70_tagged_write : forall w p rf, compiles p rf -> forall old new items more params, more_variants p old new items more params ->
  forall args inp f, bind_params w params args [] = Ok inp -> selected w inp items f ->
  forall k v, tagged_with old v -> encode w p rf k new args (retag new v) = encode w p rf k old args v.
Proof.
  intros w p rf Hp old new items more params (d & d' & len & E1 & E2 & P1 & P2 & X1 & X2 & N1 & N2 & T1 & T2) args inp f Ei Sf [|k] v T; [reflexivity|].
  rewrite !(encode_refines w p rf (proj2 Hp)). cbn [sencode]. rewrite E1, E2. cbn [of_some bind]. rewrite P1, P2, Ei. cbn [bind]. unfold se_top. rewrite X1, X2, N1, N2, T1, T2. cbn [se_xs].
  pose proof (write_selected w p rf inp (sencode w p rf None k) old new items more f v Sf T) as W. unfold se_limit, refuse. destruct len as [e|]; [|exact W].
  destruct (ev w (fun x => lookup x inp) [] e) as [lv| | |]; try reflexivity. cbn [bind]. destruct (len_of lv) as [n| | |]; try reflexivity. cbn [bind].
  destruct (se_variants w p rf (fun x => lookup x inp) None (sencode w p rf None k) new (items ++ more) (retag new v)) as [[b1 v1]|e1| |],
    (se_variants w p rf (fun x => lookup x inp) None (sencode w p rf None k) old items v) as [[b2 v2]|e2| |]; cbn [bind] in *; congruence.
Qed.
Print Assumptions C70_tagged_write.

(** ** Enums *)

(** An enum with variants added, anywhere before a default variant. *)
Definition more_values (p : program) (old new : string) (e e' : enumdef) (before after : list (string * option Z)) (added : list (string * Z)) (params : list param) : Prop :=
  exists d d', p old = Some d /\ p new = Some d' /\ d_params d = params /\ d_params d' = params /\ fa_xs (d_attr d) = [] /\ fa_xs (d_attr d') = [] /\
    d_ty d = TEnum e /\ d_ty d' = TEnum e' /\ en_rep e' = en_rep e /\
    en_items e = before ++ after /\ en_items e' = before ++ map (fun nv => (fst nv, Some (snd nv))) added ++ after.
(** The same value, of the new enum. *)
Definition reenum (e' : enumdef) (v : val) : val := match v with VEnum _ x => VEnum e' x | v => v end.

Lemma from_repr_more before added after r : (forall n, ~ In (n, r) added) -> from_repr (before ++ map (fun nv => (fst nv, Some (snd nv))) added ++ after) r = from_repr (before ++ after) r.
Proof.
  intros H. induction before as [|[n [v|]] before IH]; cbn [app from_repr]; [|destruct (r =? v); [reflexivity|exact IH]|reflexivity].
  induction added as [|[n v] added IH]; [reflexivity|]. cbn [map fst snd app from_repr]. destruct (r =? v) eqn:E; [apply Z.eqb_eq in E; subst; exfalso; apply (H n); left; reflexivity|]. apply IH. intros m Hm. apply (H m). right. exact Hm.
Qed.

(** Messages that hold none of the added values are read alike (named variants, default
    and refusals). *)
Theorem C70_enum_read : forall w p rf, world_suffixing w -> compiles p rf -> forall old new e e' before after added params, more_values p old new e e' before after added params ->
  forall k args tag rest, List.length tag = size (es_scalar (en_rep e)) -> (forall n, ~ In (n, scalar_of_bytes (en_rep e) tag) added) ->
  decode w p rf k new args (tag ++ rest) = let! (v, rest) := decode w p rf k old args (tag ++ rest) in Ok (reenum e' v, rest).
Proof.
  intros w p rf Hw Hp old new e e' before after added params (d & d' & E1 & E2 & P1 & P2 & X1 & X2 & T1 & T2 & R & I & I') [|k] args tag rest L N; [reflexivity|].
  destruct (decode_refines w p rf Hw (proj1 Hp) (S k) new args (tag ++ rest)) as (-> & _). destruct (decode_refines w p rf Hw (proj1 Hp) (S k) old args (tag ++ rest)) as (-> & _).
  cbn [sdecode]. rewrite E1, E2. cbn [of_some bind]. rewrite P1, P2. destruct (bind_params w params args []) as [inp| | |]; try reflexivity. cbn [bind]. unfold sd_top. rewrite X1, X2, T1, T2. cbn [rev sd_xs sd_type].
  unfold sd_repr. cbn [repr_rep repr_of]. rewrite R. rewrite (read_exact_app _ tag rest L). cbn [bind]. rewrite I, I', (from_repr_more before added after _ N).
  destruct (from_repr (before ++ after) (scalar_of_bytes (en_rep e) tag)); reflexivity.
Qed.
Print Assumptions C70_enum_read.

(** What could be written before is written as before. *)
Theorem C70_enum_write : forall w p rf, compiles p rf -> forall old new e e' before after added params, more_values p old new e e' before after added params ->
  (forall n v, In (n, v) added -> ~ In n (map fst (before ++ after))) ->
  forall k args x, In (match x with VNamed n | VDefault n _ => n end) (map fst (before ++ after)) ->
  encode w p rf k new args (VEnum e' x) = encode w p rf k old args (VEnum e x).
Proof.
  intros w p rf Hp old new e e' before after added params (d & d' & E1 & E2 & P1 & P2 & X1 & X2 & T1 & T2 & R & I & I') N [|k] args x Hx; [reflexivity|].
  rewrite !(encode_refines w p rf (proj2 Hp)). cbn [sencode]. rewrite E1, E2. cbn [of_some bind]. rewrite P1, P2. destruct (bind_params w params args []) as [inp| | |]; try reflexivity. cbn [bind]. unfold se_top. rewrite X1, X2, T1, T2. cbn [se_xs se_type].
  assert (L : forall n, In n (map fst (before ++ after)) -> lookup n (en_items e') = lookup n (en_items e)).
  { intros n Hn. rewrite I, I', !lookup_app. destruct (lookup n before); [reflexivity|]. destruct (lookup n (map (fun nv => (fst nv, Some (snd nv))) added)) as [v|] eqn:El; [|reflexivity].
    apply lookup_some_in in El. apply in_map_iff in El as ((n' & z) & En & Hin). injection En as -> _. exfalso. exact (N _ _ Hin Hn). }
  assert (TR : to_repr (en_items e') x = to_repr (en_items e) x) by (destruct x as [n|n raw]; cbn [to_repr]; rewrite (L n Hx); reflexivity).
  unfold se_repr, refuse. cbn [repr_enc repr_rep]. destruct (enumdef_dec e' e') as [_|F]; [|destruct (F eq_refl)]. destruct (enumdef_dec e e) as [_|F]; [|destruct (F eq_refl)]. rewrite TR, R.
  destruct (to_repr (en_items e) x) as [z|]; [|reflexivity]. destruct (in_range (es_scalar (en_rep e)) z); reflexivity.
Qed.
Print Assumptions C70_enum_write.

Definition variants_text : string := "type c1(k: u8) = container +tagged_enum { a: u8 { k == 1u8 }, b: container { x: u8, y: u16 } { k == 2u8 } };
type c2(k: u8) = container +tagged_enum { a: u8 { k == 1u8 }, b: container { x: u8, y: u16 } { k == 2u8 }, c: u32 { k == 3u8 } };
type e1 = enum u8 { p = 1, q = 2, other = default };
type e2 = enum u8 { p = 1, q = 2, r = 7, other = default };".
Example C70_nonvacuous : let p := program_of variants_text in prog_ok p 20 (prelude_marks []) = true /\
  (exists items more params, more_variants (prog p) "c1" "c2" items more params /\ List.length items = 2%nat /\ List.length more = 1%nat /\
     exists inp f, bind_params prelude_world params [VInt U8 2] [] = Ok inp /\ selected prelude_world inp items f /\ fa_name (fst f) = "b") /\
  (exists e e' before after added, more_values (prog p) "e1" "e2" e e' before after added [] /\ added = [("r", 7)] /\ after = [("other", None)] /\
     decode prelude_world (prog p) 20 3 "e1" [] [7; 5] = Ok (VEnum e (VDefault "other" 7), [5]) /\ decode prelude_world (prog p) 20 3 "e2" [] [7; 5] = Ok (VEnum e' (VNamed "r"), [5]) /\
     decode prelude_world (prog p) 20 3 "e1" [] [2; 5] = Ok (VEnum e (VNamed "q"), [5]) /\ decode prelude_world (prog p) 20 3 "e2" [] [8; 5] = Ok (VEnum e' (VDefault "other" 8), [5])) /\
  decode prelude_world (prog p) 20 3 "c1" [VInt U8 2] [4; 1; 2; 9] = Ok (VVariantS "c1" "b" [("x", VInt U8 4); ("y", VInt U16 258)], [9]) /\
  decode prelude_world (prog p) 20 3 "c2" [VInt U8 2] [4; 1; 2; 9] = Ok (VVariantS "c2" "b" [("x", VInt U8 4); ("y", VInt U16 258)], [9]) /\
  encode prelude_world (prog p) 20 3 "c2" [VInt U8 2] (retag "c2" (VVariantS "c1" "b" [("x", VInt U8 4); ("y", VInt U16 258)])) = Ok [4; 1; 2] /\
  decode prelude_world (prog p) 20 3 "c1" [VInt U8 3] [0; 0; 0; 1] = Err EDecode /\ decode prelude_world (prog p) 20 3 "c2" [VInt U8 3] [0; 0; 0; 1] = Ok (VVariant "c2" "c" (VInt U32 1), []).
Proof.
  split; [vm_compute; reflexivity|]. split; [|split; [|repeat split; vm_compute; reflexivity]].
  - pose (l := program_of variants_text). set (it := match prog l "c1" with Some {| d_ty := TCont _ _ i |} => i | _ => [] end). set (mo := match prog l "c2" with Some {| d_ty := TCont _ _ i |} => skipn 2 i | _ => [] end). set (pa := match prog l "c1" with Some d => d_params d | _ => [] end).
    exists it, mo, pa. vm_compute in it, mo, pa. split.
    + do 3 eexists. split; [vm_compute; reflexivity|]. split; [vm_compute; reflexivity|]. repeat split.
    + split; [reflexivity|]. split; [reflexivity|]. do 2 eexists. split; [vm_compute; reflexivity|]. split; [|shelve]. subst it. eexists [_], []. split; [reflexivity|]. split; [constructor; [vm_compute; reflexivity|constructor]|vm_compute; reflexivity].
      Unshelve. reflexivity.
  - pose (l := program_of variants_text). set (e := match prog l "e1" with Some {| d_ty := TEnum e |} => e | _ => {| en_name := ""; en_rep := u32be; en_items := [] |} end). set (e' := match prog l "e2" with Some {| d_ty := TEnum e |} => e | _ => {| en_name := ""; en_rep := u32be; en_items := [] |} end).
    vm_compute in e, e'. exists e, e', [("p", Some 1); ("q", Some 2)], [("other", None)], [("r", 7)]. split.
    + do 2 eexists. split; [vm_compute; reflexivity|]. split; [vm_compute; reflexivity|]. repeat split.
    + repeat split; vm_compute; reflexivity.
Qed.
Print Assumptions C70_nonvacuous.
