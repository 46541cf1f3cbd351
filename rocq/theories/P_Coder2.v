(** Properties C34-C38: arrays, conditions, length constraints. *)
From Verif Require Import ScalarFacts DecRef EncRef RtWf EnumBitsFacts RoundTrip Relax World Sample Reenc CoderFacts P_Coder.
Open Scope string_scope. Open Scope Z_scope. Open Scope list_scope.

(** ** C34 *)

(** C34. A field, element or declaration of type [el[e]], anywhere in a program: if it is
    read, [e] was a non-negative number and there are exactly that many elements, read
    one after the other.  ([sd_type ... en]: the reference reader with the fields [en]
    in scope; [elem_ty]: the element type, aliases of primitive types resolved.)
    Overflow checks are on, or the declared length is below 2^60: see
    C34_wrapped_length_refuted. *)
Theorem C34_reads_declared_length : forall w p rf inp rec en el e l v rest,
  (w_chk w = true \/ forall s z, eval w inp (fun n => lookup n en) e = Ok (VInt s z) -> z < 2 ^ 60) ->
  sd_type w p rf inp rec en (TArr el (LFixed e)) l = Ok (v, rest) ->
  exists s z vs, eval w inp (fun n => lookup n en) e = Ok (VInt s z) /\ v = VArr vs /\ Z.of_nat (List.length vs) = z /\
    reads_seq (sd_type w p rf inp rec en (elem_ty p rf el)) l vs rest.
Proof. exact fixed_reads. Qed.
Print Assumptions C34_reads_declared_length.

(** C34, on the generated decoder of [type n = el[e]]. *)
Lemma decode_fixed w p rf : world_suffixing w -> compiles p rf -> forall k n args d inp el e l v rest,
  p n = Some d -> bind_params w (d_params d) args [] = Ok inp -> d_ty d = TArr el (LFixed e) -> fa_xs (d_attr d) = [] ->
  (w_chk w = true \/ forall s z, eval w (fun x => lookup x inp) (fun _ => None) e = Ok (VInt s z) -> z < 2 ^ 60) ->
  decode w p rf (S k) n args l = Ok (v, rest) ->
  exists s z vs, eval w (fun x => lookup x inp) (fun _ => None) e = Ok (VInt s z) /\ v = VTup (VArr vs) /\ Z.of_nat (List.length vs) = z /\
    reads_seq (sd_type w p rf (fun x => lookup x inp) (sdecode w p rf k) [] (elem_ty p rf el)) l vs rest.
Proof.
  intros Hw Hp k n args d inp el e l v rest Hd Hi Ht Hx Hc H. rewrite (decode_top w p rf Hw Hp k n args d inp l Hd Hi) in H. unfold sd_top in H. rewrite Ht, Hx in H. cbn [rev sd_xs] in H.
  bi H y Ey. destruct y as [x r]. apply Ok_inj in H. injection H as <- <-. apply fixed_reads in Ey as (s & z & vs & E1 & -> & E2 & E3); [|exact Hc]. exists s, z, vs. split; [|auto].
  revert E1. unfold ev, eval. apply reval_mono. intros m x _ Hx'. rewrite lookup_nil in Hx'. discriminate Hx'.
Qed.
Theorem C34_decoder_reads_declared_length : forall w p rf, world_suffixing w -> compiles p rf -> forall k n args d inp el e l v rest,
  p n = Some d -> bind_params w (d_params d) args [] = Ok inp -> d_ty d = TArr el (LFixed e) -> fa_xs (d_attr d) = [] ->
  (w_chk w = true \/ forall s z, eval w (fun x => lookup x inp) (fun _ => None) e = Ok (VInt s z) -> z < 2 ^ 60) ->
  decode w p rf (S k) n args l = Ok (v, rest) ->
  exists s z vs, eval w (fun x => lookup x inp) (fun _ => None) e = Ok (VInt s z) /\ v = VTup (VArr vs) /\ Z.of_nat (List.length vs) = z /\
    reads_seq (sd_type w p rf (fun x => lookup x inp) (sdecode w p rf k) [] (elem_ty p rf el)) l vs rest.
Proof. exact decode_fixed. Qed.
Print Assumptions C34_decoder_reads_declared_length.

(** C34 fails without overflow checks (release builds): [t_count * size] wraps around.  A message that declares 2^61 numbers of 8 bytes and contains none is accepted
    as an empty array. *)
Definition release_world : world := {|
  w_chk := false; w_fty := w_fty prelude_world; w_ufn := w_ufn prelude_world; w_fenc := w_fenc prelude_world; w_fdec := w_fdec prelude_world;
  w_xenc := w_xenc prelude_world; w_xdec := w_xdec prelude_world; w_fill := w_fill prelude_world |}.
Definition counted_prog : list (string * decl) :=
  [ decl0 "T" (TCont None false [(fld "n", be U64); (fld "data", TArr (be U64) (LFixed (EField "n" ty_u64)))]) ].
Theorem C34_wrapped_length_refuted :
  prog_ok counted_prog 2 (prelude_marks []) = true /\
  decode release_world (World.prog counted_prog) 2 3 "T" [] [32; 0; 0; 0; 0; 0; 0; 0] = Ok (VStruct "T" [("n", VInt U64 (2 ^ 61)); ("data", VArr [])], []) /\
  decode prelude_world (World.prog counted_prog) 2 3 "T" [] [32; 0; 0; 0; 0; 0; 0; 0] = Panic.
Proof. vm_compute. auto. Qed.
Print Assumptions C34_wrapped_length_refuted.

(** C34, writing: an array of scalars, floats, enums or bitfields whose length is not the
    declared one (modulo 2^64, the cast [as usize]) is never written; otherwise the
    elements are written in order. *)
Definition bulk (p : program) (rf : nat) (el : ty) : bool := match kind_of (resolved p rf el) with KLoop => false | _ => true end.
Lemma mapM_writes (f : val -> res ioerr (list Z)) (h : val -> res ioerr (list Z * val)) vs : forall bs, mapM f vs = Ok bs -> (forall v b, f v = Ok b -> h v = Ok (b, v)) -> writes_seq h vs (concat bs).
Proof.
  induction vs as [|v vs IH]; cbn [mapM]; intros bs H E; [apply Ok_inj in H; subst; constructor|]. bi H b Eb. bi H bs' Ebs. apply Ok_inj in H. subst bs. cbn [concat]. econstructor; [apply E, Eb|apply IH; assumption].
Qed.
Lemma bulk_writes w p rf inp erec en el e v b v' : bulk p rf el = true -> se_type w p rf inp None erec en (TArr el (LFixed e)) v = Ok (b, v') ->
  exists s z vs, eval w inp (fun n => lookup n en) e = Ok (VInt s z) /\ v = VArr vs /\ z mod 2 ^ 64 = Z.of_nat (List.length vs) /\
    writes_seq (se_type w p rf inp None erec en (elem_ty p rf el)) vs b.
Proof.
  unfold bulk, elem_ty. cbn [se_type se_arr]. intros B H. bi H nv Env. change (eval w inp (fun n => lookup n en) e) with (ev w inp en e).
  assert (VI : forall z, of_some (vint nv) = Ok (E := ioerr) z -> exists s, nv = VInt s z) by (intros z Hz; destruct nv; try discriminate Hz; cbn in Hz; apply Ok_inj in Hz; subst; eauto).
  destruct (kind_of (resolved p rf el)) as [pr|d|] eqn:K; [| |discriminate B].
  - assert (H' : (let! vs := arr_of v in let! z := of_some (vint nv) in if (z mod 2 ^ 64 =? Z.of_nat (List.length vs)) then let! bs := mapM (prim_enc pr) vs in Ok (concat bs, v) else Panic) = Ok (b, v')) by (destruct pr; [discriminate H| | |]; exact H). clear H.
    bi H' vs Evs. bi H' z Ez. destruct (Z.eqb_spec (z mod 2 ^ 64) (Z.of_nat (List.length vs))) as [E|]; [|discriminate H']. bi H' bs Ebs. apply Ok_inj in H'. injection H' as <- <-. destruct (VI _ Ez) as (s & ->). destruct v; try discriminate Evs. apply Ok_inj in Evs. subst l.
    exists s, z, vs. split; [exact Env|]. split; [reflexivity|]. split; [exact E|]. eapply mapM_writes; [exact Ebs|]. intros x y Hxy. destruct (resolved p rf el); try discriminate K; injection K as <-; cbn [se_type]; unfold se_prim; rewrite Hxy; reflexivity.
  - bi H vs Evs. bi H z Ez. destruct (Z.eqb_spec (z mod 2 ^ 64) (Z.of_nat (List.length vs))) as [E|]; [|discriminate H]. bi H bs Ebs. apply Ok_inj in H. injection H as <- <-. destruct (VI _ Ez) as (s & ->). destruct v; try discriminate Evs. apply Ok_inj in Evs. subst l.
    exists s, z, vs. split; [exact Env|]. split; [reflexivity|]. split; [exact E|]. eapply mapM_writes; [exact Ebs|]. intros x y Hxy. destruct (resolved p rf el); try discriminate K; injection K as <-; cbn [se_type]; unfold se_repr; rewrite Hxy; reflexivity.
Qed.
Theorem C34_bulk_arrays_checked : forall w p rf inp erec en el e v b v', bulk p rf el = true ->
  se_type w p rf inp None erec en (TArr el (LFixed e)) v = Ok (b, v') ->
  exists s z vs, eval w inp (fun n => lookup n en) e = Ok (VInt s z) /\ v = VArr vs /\ z mod 2 ^ 64 = Z.of_nat (List.length vs) /\
    writes_seq (se_type w p rf inp None erec en (elem_ty p rf el)) vs b.
Proof. exact bulk_writes. Qed.
Print Assumptions C34_bulk_arrays_checked.

(** C34, writing an array of references, foreign types or arrays: the first [e] elements
    are written in order; if there are fewer the program panics (no output). *)
Lemma loop_writes w p rf inp erec en el e v b v' : bulk p rf el = false -> se_type w p rf inp None erec en (TArr el (LFixed e)) v = Ok (b, v') ->
  exists s z, eval w inp (fun n => lookup n en) e = Ok (VInt s z) /\
    (0 < z -> exists vs, v = VArr vs /\ z <= Z.of_nat (List.length vs) /\ writes_seq (se_type w p rf inp None erec en el) (firstn (Z.to_nat z) vs) b) /\ (z <= 0 -> b = []).
Proof.
  unfold bulk. cbn [se_type se_arr]. intros B H. bi H nv Env. change (eval w inp (fun n => lookup n en) e) with (ev w inp en e).
  destruct (kind_of (resolved p rf el)); [discriminate B|discriminate B|]. bi H z Ez. assert (exists s, nv = VInt s z) as (s & ->) by (destruct nv; try discriminate Ez; cbn in Ez; apply Ok_inj in Ez; subst; eauto).
  bi H vs Evs. bi H xs Exs. apply Ok_inj in H. injection H as <- <-. exists s, z. split; [exact Env|].
  assert (T : forall n vs xs, se_times (se_type w p rf inp None erec en el) n vs = Ok xs -> (n <= List.length vs)%nat /\ writes_seq (se_type w p rf inp None erec en el) (firstn n vs) (concat (map fst xs))).
  { clear. induction n as [|n IH]; intros vs xs H; cbn [se_times] in H.
    - assert (xs = []) by (destruct vs; apply Ok_inj in H; congruence). subst. split; [lia|]. constructor.
    - destruct vs as [|v vs]; [discriminate H|]. bi H y Ey. destruct y as [b v']. bi H ys Eys. apply Ok_inj in H. subst xs. destruct (IH _ _ Eys) as (L & W). split; [cbn; lia|]. cbn [map fst concat firstn]. econstructor; eassumption. }
  destruct (T _ _ _ Exs) as (L & W). split.
  - intros Hz. destruct (Nat.eqb_spec (Z.to_nat z) 0) as [E|]; [lia|]. destruct v; try discriminate Evs. apply Ok_inj in Evs. subst l. exists vs. split; [reflexivity|]. split; [lia|exact W].
  - intros Hz. replace (Z.to_nat z) with 0%nat in Exs by lia. destruct vs; apply Ok_inj in Exs; subst; reflexivity.
Qed.
Theorem C34_loop_arrays_partial : forall w p rf inp erec en el e v b v', bulk p rf el = false ->
  se_type w p rf inp None erec en (TArr el (LFixed e)) v = Ok (b, v') ->
  exists s z, eval w inp (fun n => lookup n en) e = Ok (VInt s z) /\
    (0 < z -> exists vs, v = VArr vs /\ z <= Z.of_nat (List.length vs) /\ writes_seq (se_type w p rf inp None erec en el) (firstn (Z.to_nat z) vs) b) /\
    (z <= 0 -> b = []).
Proof. exact loop_writes. Qed.
Print Assumptions C34_loop_arrays_partial.

(** C34 as stated fails for these: extra elements are dropped without an error. *)
Definition items_prog : list (string * decl) :=
  [decl0 "Item" (TCont None false [(fld "x", be U8)]); decl0 "T" (TCont None false [(fld "n", be U8); (fld "items", TArr (TRef "Item" []) (LFixed (ECast (EField "n" ty_u8) ty_u64)))])].
Definition item (z : Z) : val := VStruct "Item" [("x", VInt U8 z)].
Theorem C34_extra_elements_dropped_refuted : prog_ok items_prog 9 (prelude_marks []) = true /\
  encode prelude_world (prog items_prog) 9 3 "T" [] (VStruct "T" [("n", VInt U8 2); ("items", VArr [item 5; item 6; item 7])]) = Ok [2; 5; 6].
Proof. split; vm_compute; reflexivity. Qed.
Print Assumptions C34_extra_elements_dropped_refuted.
Example C34_nonvacuous : prog_ok items_prog 9 (prelude_marks []) = true /\
  decode prelude_world (prog items_prog) 9 3 "T" [] [2; 5; 6; 7] = Ok (VStruct "T" [("n", VInt U8 2); ("items", VArr [item 5; item 6])], [7]).
Proof. split; vm_compute; reflexivity. Qed.

(** ** C35 *)

(** C35. A [..] array leaves nothing and its elements are read one after the other;
    what is not turned into elements ([tail]) is shorter than one element, so it is
    empty for byte-sized elements and for all element types without a bulk
    representation (there an incomplete element is the element's own error). *)
Theorem C35_reads_to_the_end_partial : forall w p rf inp rec en el l v rest,
  sd_type w p rf inp rec en (TArr el LRest) l = Ok (v, rest) ->
  rest = [] /\ exists vs tail, v = VArr vs /\ (List.length tail < elem_size p rf el)%nat /\
    reads_seq (sd_type w p rf inp rec en (elem_ty p rf el)) l vs tail.
Proof. exact rest_reads. Qed.
Print Assumptions C35_reads_to_the_end_partial.

Definition rest_prog (el : ty) : list (string * decl) := [decl0 "Item" (TCont None false [(fld "x", be U16)]); decl0 "T" (TArr el LRest)].
Example C35_nonvacuous : prog_ok (rest_prog (TRef "Item" [])) 9 (prelude_marks ["T"]) = true /\
  (exists v, decode prelude_world (prog (rest_prog (TRef "Item" []))) 9 3 "T" [] [1; 2; 3; 4] = Ok (v, [])) /\
  decode prelude_world (prog (rest_prog (TRef "Item" []))) 9 3 "T" [] [1; 2; 3] = Err EEof.
Proof. split; [vm_compute; reflexivity|]. split; [eexists|]; vm_compute; reflexivity. Qed.
(** C35 as stated fails: the incomplete last element of an array of wider scalars is
    dropped silently. *)
Theorem C35_partial_element_dropped_refuted : prog_ok (rest_prog (be U16)) 9 (prelude_marks ["T"]) = true /\
  decode prelude_world (prog (rest_prog (be U16))) 9 3 "T" [] [1; 2; 3] = Ok (VTup (VArr [VInt U16 258]), []).
Proof. split; vm_compute; reflexivity. Qed.
Print Assumptions C35_partial_element_dropped_refuted.

(** ** C36 *)

(** C36. Round trip of [type n = elem[.. term]]: if no element is empty and the
    terminator does not show up where an element starts - not even by straddling
    elements - the elements come back and decoding stops right behind the terminator. *)
Definition term_type (n m : string) (term : list Z) : decl :=
  {| d_attr := fld n; d_ty := TArr (TRef m []) (LTerm (EStr term)); d_params := [] |}.
Lemma sencode_fix_mapM (f : val -> res ioerr (list Z * val)) vs bs : Forall2 (fun v b => f v = Ok (b, v)) vs bs -> mapM f vs = Ok (E := ioerr) (combine bs vs).
Proof. induction 1 as [|v b vs bs H1 _ IH]; [reflexivity|]. cbn [mapM combine]. rewrite H1. cbn [bind]. rewrite IH. reflexivity. Qed.
Lemma zlist_eqb_spec a : forall b, zlist_eqb a b = true <-> a = b.
Proof. induction a as [|x a IH]; intros [|y b]; cbn; try (split; congruence). rewrite andb_true_iff, IH, Z.eqb_eq. split; [intros (-> & ->); reflexivity|]. intros H. injection H. auto. Qed.
Lemma no_term_spec term bs : (forall pre b post, bs = pre ++ b :: post -> b <> [] /\ firstn (List.length term) (concat (b :: post) ++ term) <> term) -> no_term term bs = true.
Proof.
  induction bs as [|b bs IH]; intros H; [reflexivity|]. cbn [no_term]. destruct (H [] b bs eq_refl) as (H1 & H2). rewrite !andb_true_iff. split; [split|].
  - destruct b; [contradiction|reflexivity].
  - apply negb_true_iff. destruct (zlist_eqb _ _) eqn:E; [|reflexivity]. apply zlist_eqb_spec in E. contradiction.
  - apply IH. intros pre b' post ->. apply (H (b :: pre) b' post eq_refl).
Qed.
Lemma mapM_u8 term : bytes_ok term -> mapM (prim_enc (PScalar u8be)) (map (VInt U8) term) = Ok (E := ioerr) (map (fun z => [z]) term).
Proof.
  induction 1 as [|z l Hz _ IH]; [reflexivity|]. cbn [map mapM]. assert (E : prim_enc (PScalar u8be) (VInt U8 z) = Ok [z]).
  { cbn [prim_enc]. assert (R : in_range U8 z = true) by (apply in_range_iff; unfold byte_ok in Hz; cbn; lia). cbn [u8be es_scalar scalar_eqb]. rewrite R. cbn [andb]. f_equal. unfold scalar_bytes. cbn. f_equal. unfold byte_ok in Hz. apply Z.mod_small. lia. }
  rewrite E. cbn [bind]. rewrite IH. reflexivity.
Qed.

Lemma concat_single (l : list Z) : concat (map (fun z => [z]) l) = l.
Proof. induction l; cbn; congruence. Qed.
Lemma term_roundtrip w g mk p rf : world_laws w g mk -> world_suffixing w -> rt_program p mk -> compiles p rf ->
  forall n m term, p n = Some (term_type n m term) -> foreign_of p m = None -> kind_of (resolved p rf (TRef m [])) = KLoop -> bytes_ok term ->
  forall k vs bs rest, Forall2 (fun v b => sencode w p rf (Some g) k m [] v = Ok (b, v)) vs bs ->
    (forall pre b post, bs = pre ++ b :: post -> b <> [] /\ firstn (List.length term) (concat (b :: post) ++ term) <> term) ->
    (mk_ty mk n = true -> rest = []) ->
    encode w p rf (S k) n [] (VTup (VArr vs)) = Ok (concat bs ++ term) /\
    decode w p rf (S k) n [] (concat bs ++ term ++ rest) = Ok (VTup (VArr vs), rest).
Proof.
  intros L S R C n m term Hn Hm Hk Ht k vs bs rest HF HT Hr. rewrite app_assoc. eapply C31_roundtrip_partial; try eassumption.
  - unfold foreign_of. rewrite Hn. reflexivity.
  - cbn [sencode]. rewrite Hn. cbn [of_some bind term_type d_params bind_params d_ty d_attr fld fa_xs se_top se_xs se_type se_arr].
    assert (E1 : ev w (fun x => lookup x []) [] (EStr term) = Ok (VArr (map (VInt U8) term))) by reflexivity. rewrite E1. cbn [bind arr_of].
    assert (E2 : mapM (fun v => let! vs0 := mapM (ev w (fun x => lookup x []) []) [] in match p m with Some {| d_ty := TForeign f |} => se_foreign w (Some g) f vs0 v | _ => sencode w p rf (Some g) k m vs0 v end) vs = Ok (combine bs vs)).
    { apply sencode_fix_mapM. clear -HF Hm. induction HF as [|v b vs bs Hv _ IH]; constructor; [|exact IH]. cbn [mapM bind]. unfold foreign_of in Hm. destruct (p m) as [[? t ?]|]; [destruct t|]; try exact Hv. discriminate Hm. }
    assert (LEN : List.length bs = List.length vs) by (clear -HF; induction HF; cbn; congruence).
    change (mapM (fun v => se_type w p rf (fun x => lookup x []) (Some g) (sencode w p rf (Some g) k) [] (TRef m []) v) vs) with
      (mapM (fun v => let! vs0 := mapM (ev w (fun x => lookup x []) []) [] in match p m with Some {| d_ty := TForeign f |} => se_foreign w (Some g) f vs0 v | _ => sencode w p rf (Some g) k m vs0 v end) vs).
    cbn [mapM bind] in E2 |- *. rewrite E2. cbn [bind arr_of]. rewrite mapM_u8 by exact Ht. cbn [bind refuse]. rewrite concat_single, combine_fst, combine_snd by exact LEN. rewrite no_term_spec by exact HT. reflexivity.
Qed.
Theorem C36_terminated_roundtrip : forall w g mk p rf, world_laws w g mk -> world_suffixing w -> rt_program p mk -> compiles p rf ->
  forall n m term, p n = Some (term_type n m term) -> foreign_of p m = None -> kind_of (resolved p rf (TRef m [])) = KLoop -> bytes_ok term ->
  forall k vs bs rest, Forall2 (fun v b => sencode w p rf (Some g) k m [] v = Ok (b, v)) vs bs ->
    (forall pre b post, bs = pre ++ b :: post -> b <> [] /\ firstn (List.length term) (concat (b :: post) ++ term) <> term) ->
    (mk_ty mk n = true -> rest = []) ->
    encode w p rf (S k) n [] (VTup (VArr vs)) = Ok (concat bs ++ term) /\
    decode w p rf (S k) n [] (concat bs ++ term ++ rest) = Ok (VTup (VArr vs), rest).
Proof. exact term_roundtrip. Qed.
Print Assumptions C36_terminated_roundtrip.

Definition term_prog : list (string * decl) :=
  [decl0 "Item" (TCont None false [(fld "x", be U16)]); ("T", term_type "T" "Item" [13; 10]); decl0 "Nil" (TCont None false []); ("Z", term_type "Z" "Nil" [13; 10])].
Definition item16 (z : Z) : val := VStruct "Item" [("x", VInt U16 z)].
Example C36_nonvacuous : prog_ok term_prog 9 (prelude_marks []) = true /\
  encode prelude_world (prog term_prog) 9 3 "T" [] (VTup (VArr [item16 258; item16 2573])) = Ok [1; 2; 10; 13; 13; 10] /\
  decode prelude_world (prog term_prog) 9 3 "T" [] [1; 2; 10; 13; 13; 10; 99] = Ok (VTup (VArr [item16 258; item16 2573]), [99]).
Proof. repeat split; vm_compute; reflexivity. Qed.
(** C36 as stated fails: the end of the input is accepted in place of the terminator;
    fewer bytes than the terminator, or elements that take no bytes, loop forever; an
    element that looks like the terminator cuts the array short. *)
Theorem C36_missing_terminator_refuted :
  decode prelude_world (prog term_prog) 9 3 "T" [] [1; 2; 10; 14] = Ok (VTup (VArr [item16 258; item16 2574]), []).
Proof. vm_compute. reflexivity. Qed.
Print Assumptions C36_missing_terminator_refuted.
Theorem C36_termination_refuted : decode prelude_world (prog term_prog) 9 3 "T" [] [1; 2; 7] = Hang /\
  decode prelude_world (prog term_prog) 9 3 "Z" [] [1; 2; 7] = Hang.
Proof. split; vm_compute; reflexivity. Qed.
Print Assumptions C36_termination_refuted.
Theorem C36_element_as_terminator_refuted : encode prelude_world (prog term_prog) 9 3 "T" [] (VTup (VArr [item16 3338; item16 1])) = Ok [13; 10; 0; 1; 13; 10] /\
  decode prelude_world (prog term_prog) 9 3 "T" [] [13; 10; 0; 1; 13; 10] = Ok (VTup (VArr []), [0; 1; 13; 10]).
Proof. split; vm_compute; reflexivity. Qed.
Print Assumptions C36_element_as_terminator_refuted.

(** ** C37 *)

(** C37, reading a field or container with a condition, at any nesting depth ([en]: the
    fields read before it): the condition is evaluated over those; if false, no byte is
    consumed and every field of it is absent; if true, it is read (after its
    transforms) and every field of it is present. *)
Theorem C37_conditional_read : forall w p rf inp rec a t e en l vs rest, fa_cond a = Some e -> fa_pad a = false ->
  sd_field w inp (sd_item w p rf inp rec (a, t)) en l = Ok (vs, rest) ->
  exists c, eval w inp (fun n => lookup n en) e = Ok (VBool c) /\
    (c = false -> rest = l /\ vs = map (fun n => (n, VOpt None)) (leaf_names (flatten_field (a, t)))) /\
    (c = true -> exists us, vs = map (fun nv => (fst nv, VOpt (Some (snd nv)))) us /\
       sd_xs w inp en (rev (fa_xs a)) (sd_complex w p rf inp rec a t en) l = Ok (us, rest)).
Proof. exact cond_field_read. Qed.
Print Assumptions C37_conditional_read.

(** C37, on the generated decoder of a container declaration: its conditional leaf field
    [a] is present iff its condition holds over the fields before it. *)
Lemma cond_decode w p rf : world_suffixing w -> compiles p rf -> forall k n args d inp pre a t post e l v rest,
  p n = Some d -> bind_params w (d_params d) args [] = Ok inp -> d_ty d = TCont None false (pre ++ (a, t) :: post) -> fa_xs (d_attr d) = [] ->
  fa_cond a = Some e -> fa_pad a = false -> is_cont t = false ->
  decode w p rf (S k) n args l = Ok (v, rest) ->
  exists before x after c, v = VStruct (fa_name (d_attr d)) (before ++ (fa_name a, VOpt x) :: after) /\
    eval w (fun y => lookup y inp) (fun y => lookup y (rev before)) e = Ok (VBool c) /\ (c = true <-> x <> None).
Proof.
  intros Hw Hp k n args d inp pre a t post e l v rest Hd Hi Ht Hx Hc Hpd Hct H. destruct (decode_struct w p rf Hw Hp k n args d inp _ l v rest Hd Hi Ht Hx H) as (vs & -> & E).
  rewrite map_app in E. cbn [map] in E. apply sd_items_split in E as (vs1 & l1 & vs2 & l2 & vs3 & E1 & E2 & E3 & ->). rewrite app_nil_r in *.
  destruct (cond_field_read w p rf _ _ a t e _ _ _ _ Hc Hpd E2) as (c & Ec & F & T).
  assert (X : exists x, vs2 = [(fa_name a, VOpt x)] /\ (c = true <-> x <> None)).
  { destruct c.
    - destruct (T eq_refl) as (us & -> & Eu). apply sd_xs_inv in Eu as (l' & r' & Eu). rewrite sd_complex_leaf in Eu by (unfold leaf; cbn [fst snd]; rewrite Hpd, Hct; reflexivity). bi Eu y Ey. destruct y as [y ly]. apply Ok_inj in Eu. injection Eu as <- <-. exists (Some y). split; [reflexivity|]. split; [discriminate|reflexivity].
    - destruct (F eq_refl) as (_ & ->). unfold flatten_field. cbn [snd]. rewrite Hct. unfold leaf_names, leaf. cbn [filter fst snd map]. rewrite Hpd, Hct. cbn. exists None. split; [reflexivity|]. split; [discriminate|congruence]. }
  destruct X as (x & -> & Hxc). exists vs1, x, vs3, c. split; [reflexivity|]. split; [exact Ec|exact Hxc].
Qed.
Theorem C37_decoder_presence : forall w p rf, world_suffixing w -> compiles p rf -> forall k n args d inp pre a t post e l v rest,
  p n = Some d -> bind_params w (d_params d) args [] = Ok inp -> d_ty d = TCont None false (pre ++ (a, t) :: post) -> fa_xs (d_attr d) = [] ->
  fa_cond a = Some e -> fa_pad a = false -> is_cont t = false ->
  decode w p rf (S k) n args l = Ok (v, rest) ->
  exists before x after c, v = VStruct (fa_name (d_attr d)) (before ++ (fa_name a, VOpt x) :: after) /\
    eval w (fun y => lookup y inp) (fun y => lookup y (rev before)) e = Ok (VBool c) /\ (c = true <-> x <> None).
Proof. exact cond_decode. Qed.
Print Assumptions C37_decoder_presence.

(** C37, on the generated encoder of a container declaration without [blen]: the output
    splits into what precedes the conditional field, the field and what follows; the
    field is empty if its condition is false over the struct's fields ([scope_of]:
    stored ones as stored, calculated ones as computed); if it is true the struct must
    hold a value for it, and that value is what is written. *)
Lemma cond_encode w p rf : world_suffixing w -> compiles p rf -> forall k n args d inp pre a t post e nm fs b,
  p n = Some d -> bind_params w (d_params d) args [] = Ok inp -> d_ty d = TCont None false (pre ++ (a, t) :: post) -> fa_xs (d_attr d) = [] ->
  Forall no_blen (pre ++ (a, t) :: post) ->
  fa_cond a = Some e -> fa_pad a = false -> is_cont t = false -> fa_calc a = None ->
  encode w p rf (S k) n args (VStruct nm fs) = Ok b ->
  exists en b1 b2 b3 c, scope_of w (fun y => lookup y inp) (flatten_items (pre ++ (a, t) :: post)) fs en /\ b = b1 ++ b2 ++ b3 /\
    eval w (fun y => lookup y inp) (fun y => lookup y en) e = Ok (VBool c) /\ (c = false -> b2 = []) /\
    (c = true -> exists x, lookup (fa_name a) fs = Some (VOpt (Some x)) /\
       (fa_xs a = [] -> exists x', se_type w p rf (fun y => lookup y inp) None (sencode w p rf None k) en t x = Ok (b2, x'))).
Proof.
  intros Hw Hp k n args d inp pre a t post e nm fs b Hd Hi Ht Hx HN Hc Hpd Hct Hca H.
  destruct (encode_struct w p rf Hp k n args d inp _ nm fs b Hd Hi Ht Hx H) as (en & vs & Sc & E). rewrite map_app in E. cbn [map] in E.
  change (se_item w p rf (fun x => lookup x inp) None (sencode w p rf None k) (a, t)) with (a, t, se_complex w p rf (fun x => lookup x inp) None (sencode w p rf None k) a t) in E.
  apply se_items_split in E.
  2:{ rewrite Forall_app in HN. destruct HN as (N1 & N2). inversion N2 as [|? ? N3 N4]; subst. apply Forall_app. split; [|constructor; [exact N3|]]; apply Forall_map; eapply Forall_impl; try eassumption; intros [a' t'] Hf; exact Hf. }
  destruct E as (b1 & vs1 & v & b2 & vs2 & n0 & b3 & vs3 & E1 & E2 & E3 & E4 & -> & ->). rewrite Hct, Hpd in E2. specialize (E2 eq_refl).
  destruct (cond_leaf_write w p rf _ _ _ a t e en v false b2 vs2 n0 false Hc ltac:(unfold leaf; cbn [fst snd]; rewrite Hpd, Hct; reflexivity) Hca E3) as (c & Ec & F & T).
  exists en, b1, b2, b3, c. split; [exact Sc|]. split; [reflexivity|]. split; [exact Ec|]. split; [intros C; apply F, C|]. intros C. destruct (T C) as (x & x' & -> & -> & T2). exists x. split; [|intros X; exists x'; apply T2, X].
  destruct (proj1 Sc (a, t)) as (v & V1 & V2); [unfold flatten_items; rewrite flat_map_app; apply in_or_app; right; cbn [flat_map]; apply in_or_app; left; unfold flatten_field; cbn [snd]; rewrite Hct; left; reflexivity|exact Hca|exact Hpd|]. cbn [fst] in *. congruence.
Qed.
Theorem C37_encoder_presence_partial : forall w p rf, world_suffixing w -> compiles p rf -> forall k n args d inp pre a t post e nm fs b,
  p n = Some d -> bind_params w (d_params d) args [] = Ok inp -> d_ty d = TCont None false (pre ++ (a, t) :: post) -> fa_xs (d_attr d) = [] ->
  Forall no_blen (pre ++ (a, t) :: post) ->
  fa_cond a = Some e -> fa_pad a = false -> is_cont t = false -> fa_calc a = None ->
  encode w p rf (S k) n args (VStruct nm fs) = Ok b ->
  exists en b1 b2 b3 c, scope_of w (fun y => lookup y inp) (flatten_items (pre ++ (a, t) :: post)) fs en /\ b = b1 ++ b2 ++ b3 /\
    eval w (fun y => lookup y inp) (fun y => lookup y en) e = Ok (VBool c) /\ (c = false -> b2 = []) /\
    (c = true -> exists x, lookup (fa_name a) fs = Some (VOpt (Some x)) /\
       (fa_xs a = [] -> exists x', se_type w p rf (fun y => lookup y inp) None (sencode w p rf None k) en t x = Ok (b2, x'))).
Proof. exact cond_encode. Qed.
Print Assumptions C37_encoder_presence_partial.
Example C37_nonvacuous : prog_ok opt_prog 9 (prelude_marks []) = true /\
  decode prelude_world (prog opt_prog) 9 3 "T" [] [1; 5] = Ok (VStruct "T" [("c", VInt U8 1); ("o", VOpt (Some (VInt U8 5)))], []) /\
  decode prelude_world (prog opt_prog) 9 3 "T" [] [2; 5] = Ok (VStruct "T" [("c", VInt U8 2); ("o", VOpt None)], [5]) /\
  encode prelude_world (prog opt_prog) 9 3 "T" [] (VStruct "T" [("c", VInt U8 1); ("o", VOpt None)]) = Err EEncode.
Proof. repeat split; vm_compute; reflexivity. Qed.
(** C37 as stated fails one way: a value under a false condition is not an error. *)
Theorem C37_extra_value_accepted_refuted : encode prelude_world (prog opt_prog) 9 3 "T" [] (VStruct "T" [("c", VInt U8 0); ("o", VOpt (Some (VInt U8 5)))]) = Ok [0].
Proof. vm_compute. reflexivity. Qed.
Print Assumptions C37_extra_value_accepted_refuted.

(** ** C38 *)

(** C38, on the generated decoder of a container declaration with a nested container of
    declared length: the contents are read from the first [n] bytes only; what follows
    is read from the contents' leftovers followed by the rest. *)
Lemma limit_decode w p rf : world_suffixing w -> compiles p rf -> forall k n args d inp pre a le sub post l v rest,
  p n = Some d -> bind_params w (d_params d) args [] = Ok inp -> d_ty d = TCont None false (pre ++ (a, TCont (Some le) false sub) :: post) -> fa_xs (d_attr d) = [] ->
  fa_cond a = None -> fa_pad a = false -> fa_xs a = [] ->
  decode w p rf (S k) n args l = Ok (v, rest) ->
  let item := sd_item w p rf (fun y => lookup y inp) (sdecode w p rf k) in let items := sd_items w (fun y => lookup y inp) in
  exists vs1 l1 s z vs2 left vs3, v = VStruct (fa_name (d_attr d)) (vs1 ++ vs2 ++ vs3) /\
    items (map item pre) [] l = Ok (vs1, l1) /\
    eval w (fun y => lookup y inp) (fun y => lookup y (rev vs1)) le = Ok (VInt s z) /\
    items (map item sub) (rev vs1) (firstn (Z.to_nat (z mod 2 ^ 64)) l1) = Ok (vs2, left) /\
    items (map item post) (rev vs2 ++ rev vs1) (left ++ skipn (Z.to_nat (z mod 2 ^ 64)) l1) = Ok (vs3, rest).
Proof.
  intros Hw Hp k n args d inp pre a le sub post l v rest Hd Hi Ht Hx Hc Hpd Hxs H. destruct (decode_struct w p rf Hw Hp k n args d inp _ l v rest Hd Hi Ht Hx H) as (vs & -> & E).
  rewrite map_app in E. cbn [map] in E. apply sd_items_split in E as (vs1 & l1 & vs2 & l2 & vs3 & E1 & E2 & E3 & ->). rewrite app_nil_r in *.
  unfold sd_field, sd_item in E2. cbn [fst snd] in E2. rewrite Hc, Hxs in E2. cbn [rev sd_xs sd_complex] in E2. rewrite Hpd in E2. cbn [sd_limit] in E2. bi E2 lv Elv. bi E2 nn En. bi E2 y Ey. destruct y as [vs2' left]. apply Ok_inj in E2. injection E2 as <- <-.
  destruct lv as [s z| | | | | | | | | | | |]; try discriminate En. cbn in En. apply Ok_inj in En. subst nn. exists vs1, l1, s, z, vs2', left, vs3. split; [reflexivity|]. split; [exact E1|]. split; [exact Elv|]. split; [exact Ey|exact E3].
Qed.
Theorem C38_contents_stay_inside : forall w p rf, world_suffixing w -> compiles p rf -> forall k n args d inp pre a le sub post l v rest,
  p n = Some d -> bind_params w (d_params d) args [] = Ok inp -> d_ty d = TCont None false (pre ++ (a, TCont (Some le) false sub) :: post) -> fa_xs (d_attr d) = [] ->
  fa_cond a = None -> fa_pad a = false -> fa_xs a = [] ->
  decode w p rf (S k) n args l = Ok (v, rest) ->
  let item := sd_item w p rf (fun y => lookup y inp) (sdecode w p rf k) in let items := sd_items w (fun y => lookup y inp) in
  exists vs1 l1 s z vs2 left vs3, v = VStruct (fa_name (d_attr d)) (vs1 ++ vs2 ++ vs3) /\
    items (map item pre) [] l = Ok (vs1, l1) /\
    eval w (fun y => lookup y inp) (fun y => lookup y (rev vs1)) le = Ok (VInt s z) /\
    items (map item sub) (rev vs1) (firstn (Z.to_nat (z mod 2 ^ 64)) l1) = Ok (vs2, left) /\
    items (map item post) (rev vs2 ++ rev vs1) (left ++ skipn (Z.to_nat (z mod 2 ^ 64)) l1) = Ok (vs3, rest).
Proof. exact limit_decode. Qed.
Print Assumptions C38_contents_stay_inside.

Definition limit_prog : list (string * decl) :=
  [decl0 "T" (TCont None false [(fld "n", be U8); (fld "body", TCont (Some (ECast (EField "n" ty_u8) ty_u64)) false [(fld "x", be U8); (fld "y", be U8)]); (fld "z", be U8)])].
Example C38_nonvacuous : prog_ok limit_prog 9 (prelude_marks []) = true /\
  decode prelude_world (prog limit_prog) 9 3 "T" [] [2; 5; 6; 7; 8] = Ok (VStruct "T" [("n", VInt U8 2); ("x", VInt U8 5); ("y", VInt U8 6); ("z", VInt U8 7)], [8]) /\
  decode prelude_world (prog limit_prog) 9 3 "T" [] [1; 5; 6; 7] = Err EEof.
Proof. repeat split; vm_compute; reflexivity. Qed.
(** C38 as stated fails: bytes of the container its fields did not use are not skipped
    (the next field reads them), and the encoder writes contents of any size. *)
Theorem C38_leftovers_not_skipped_refuted :
  decode prelude_world (prog limit_prog) 9 3 "T" [] [4; 5; 6; 90; 91; 7] = Ok (VStruct "T" [("n", VInt U8 4); ("x", VInt U8 5); ("y", VInt U8 6); ("z", VInt U8 90)], [91; 7]).
Proof. vm_compute. reflexivity. Qed.
Print Assumptions C38_leftovers_not_skipped_refuted.
Theorem C38_size_unchecked_refuted :
  encode prelude_world (prog limit_prog) 9 3 "T" [] (VStruct "T" [("n", VInt U8 9); ("x", VInt U8 5); ("y", VInt U8 6); ("z", VInt U8 7)]) = Ok [9; 5; 6; 7].
Proof. vm_compute. reflexivity. Qed.
Print Assumptions C38_size_unchecked_refuted.
