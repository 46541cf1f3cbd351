(** C72: aliases and arrays of a declared type, in terms of the type they name. *)
From Verif Require Import ScalarFacts DecRef EncRef RtWf RoundTrip World Sample CoderFacts P_Lengths P_Safe P_EncSafe P_Compose.
Open Scope string_scope. Open Scope Z_scope. Open Scope list_scope.

(** [alias] is declared as another type with arguments: [type alias(params) = n(args)]. *)
Definition is_alias (p : program) (alias : string) (params : list Asg.param) (n : string) (args : list expr) : Prop :=
  exists d, p alias = Some d /\ d_params d = params /\ fa_xs (d_attr d) = [] /\ d_ty d = TRef n args.
(** The arguments are evaluated on the alias's own arguments. *)
Definition passed (w : world) (inp : list (string * val)) (args : list expr) : res ioerr (list val) := mapM (eval w (fun x => lookup x inp) (fun _ => None)) args.

Lemma passed_ok w inp args : passed w inp args = mapM (ev w (fun x => lookup x inp) []) args.
Proof. unfold passed. induction args as [|e args IH]; [reflexivity|]. cbn [mapM]. rewrite IH. rewrite (eval_ext w _ (fun _ => None) (fun x => lookup x []) e) by reflexivity. reflexivity. Qed.

Theorem C72_read : forall w p rf, world_suffixing w -> compiles p rf -> forall alias params n args, is_alias p alias params n args -> foreign_of p n = None ->
  forall k given inp l, bind_params w params given [] = Ok inp ->
  decode w p rf (S k) alias given l = let! vs := passed w inp args in let! (v, rest) := decode w p rf k n vs l in Ok (VTup v, rest).
Proof.
  intros w p rf Hw Hp alias params n args (d & Hd & <- & Hx & Ht) Fo k given inp l Hi. rewrite (decode_top w p rf Hw Hp k alias given d inp l Hd Hi). unfold sd_top. rewrite Ht, Hx. cbn [rev sd_xs sd_type]. rewrite <- passed_ok.
  destruct (passed w inp args) as [vs| | |]; try reflexivity. cbn [bind]. rewrite (proj1 (decode_refines w p rf Hw (proj1 Hp) k n vs l)). unfold foreign_of in Fo. destruct (p n) as [[da dt dp]|]; [destruct dt|]; try discriminate Fo; reflexivity.
Qed.
Print Assumptions C72_read.
Theorem C72_write : forall w p rf, compiles p rf -> forall alias params n args, is_alias p alias params n args -> foreign_of p n = None ->
  forall k given inp v, bind_params w params given [] = Ok inp ->
  encode w p rf (S k) alias given (VTup v) = let! vs := passed w inp args in encode w p rf k n vs v.
Proof.
  intros w p rf Hp alias params n args (d & Hd & <- & Hx & Ht) Fo k given inp v Hi. rewrite (encode_top w p rf Hp k alias given d inp _ Hd Hi). unfold se_top. rewrite Ht, Hx. cbn [se_xs se_type]. rewrite <- passed_ok.
  destruct (passed w inp args) as [vs| | |]; try reflexivity. cbn [bind]. rewrite (encode_refines w p rf (proj2 Hp)). unfold foreign_of in Fo.
  destruct (p n) as [[da dt dp]|]; [destruct dt|]; try discriminate Fo; cbn [d_ty]; destruct (sencode w p rf None k n vs v) as [[b v']| | |]; reflexivity.
Qed.
Print Assumptions C72_write.

(** Arrays of a declared type: so many elements, one after the other, each by its own
    [decode]. *)
Definition is_array (p : program) (arr : string) (params : list Asg.param) (n : string) (args : list expr) (count : expr) : Prop :=
  exists d, p arr = Some d /\ d_params d = params /\ fa_xs (d_attr d) = [] /\ d_ty d = TArr (TRef n args) (LFixed count).
Fixpoint read_times (f : list Z -> res ioerr (val * list Z)) (n : nat) (l : list Z) : res ioerr (list val * list Z) :=
  match n with O => Ok ([], l) | S n => let! (v, l) := f l in let! (vs, l) := read_times f n l in Ok (v :: vs, l) end.
Definition is_container (p : program) (n : string) : Prop := exists d len tagged items, p n = Some d /\ d_ty d = TCont len tagged items.

Lemma container_kind p rf n args : is_container p n -> kind_of (resolved p rf (TRef n args)) = KLoop /\ foreign_of p n = None.
Proof. intros (d & len & tg & its & E & T). split; [|unfold foreign_of; rewrite E; destruct d as [da dt dp]; cbn [d_ty] in T; subst dt; reflexivity]. destruct rf as [|[|rf]]; cbn [resolved]; rewrite ?E; try rewrite T; reflexivity. Qed.

Theorem C72_array_read : forall w p rf, world_suffixing w -> compiles p rf -> forall arr params n args count, is_array p arr params n args count -> is_container p n ->
  forall k given inp vs s z l, bind_params w params given [] = Ok inp -> passed w inp args = Ok vs ->
  eval w (fun x => lookup x inp) (fun _ => None) count = Ok (VInt s z) -> 0 <= z < 2 ^ 63 ->
  decode w p rf (S k) arr given l = let! (xs, rest) := read_times (decode w p rf k n vs) (Z.to_nat z) l in Ok (VTup (VArr xs), rest).
Proof.
  intros w p rf Hw Hp arr params n args count (d & Hd & <- & Hx & Ht) C k given inp vs s z l Hi Hv Hc Hz. destruct (container_kind p rf n args C) as (K & Fo).
  rewrite (decode_top w p rf Hw Hp k arr given d inp l Hd Hi). unfold sd_top. rewrite Ht, Hx. cbn [rev sd_xs sd_type sd_arr]. unfold ev at 1. rewrite (eval_ext w _ (fun x => lookup x []) (fun _ => None)) by reflexivity. rewrite Hc. cbn [bind]. rewrite K. cbn [len_of].
  unfold cap. replace ((0 <=? z) && (z <? 2 ^ 63)) with true by (symmetry; apply andb_true_iff; split; [apply Z.leb_le|apply Z.ltb_lt]; lia). cbn [bind].
  match goal with |- context [sd_times ?f ?m ?x] => set (g := f) end.
  assert (Hg : forall y, g y = decode w p rf k n vs y).
  { intros y. subst g. cbv beta. rewrite <- passed_ok, Hv. cbn [bind]. rewrite (proj1 (decode_refines w p rf Hw (proj1 Hp) k n vs y)). unfold foreign_of in Fo. destruct (p n) as [[da dt dp]|]; [destruct dt|]; try discriminate Fo; reflexivity. }
  assert (E : forall c y, sd_times g c y = read_times (decode w p rf k n vs) c y).
  { clearbody g. induction c as [|c IH]; intros y; [reflexivity|]. cbn [sd_times read_times]. rewrite Hg. destruct (decode w p rf k n vs y) as [[v r]| | |]; try reflexivity. cbn [bind]. rewrite IH. reflexivity. }
  rewrite E. destruct (read_times (decode w p rf k n vs) (Z.to_nat z) l) as [[xs r]| | |]; reflexivity.
Qed.
Print Assumptions C72_array_read.

Theorem C72_array_write : forall w p rf, compiles p rf -> forall arr params n args count, is_array p arr params n args count -> is_container p n ->
  forall k given inp vs s z xs, bind_params w params given [] = Ok inp -> passed w inp args = Ok vs ->
  eval w (fun x => lookup x inp) (fun _ => None) count = Ok (VInt s z) -> z = Z.of_nat (List.length xs) ->
  encode w p rf (S k) arr given (VTup (VArr xs)) = let! bs := mapM (encode w p rf k n vs) xs in Ok (concat bs).
Proof.
  intros w p rf Hp arr params n args count (d & Hd & <- & Hx & Ht) C k given inp vs s z xs Hi Hv Hc Hz. destruct (container_kind p rf n args C) as (K & Fo).
  rewrite (encode_top w p rf Hp k arr given d inp _ Hd Hi). unfold se_top. rewrite Ht, Hx. cbn [se_xs se_type se_arr]. unfold ev at 1. rewrite (eval_ext w _ (fun x => lookup x []) (fun _ => None)) by reflexivity. rewrite Hc. cbn [bind]. rewrite K. cbn [vint of_some bind].
  subst z. rewrite Nat2Z.id. replace (if (List.length xs =? 0)%nat then Ok xs else arr_of (VArr xs)) with (@Ok ioerr _ xs) by (destruct (List.length xs =? 0)%nat; reflexivity). cbn [bind]. unfold refuse.
  match goal with |- context [se_times ?f ?m ?x] => set (g := f) end.
  assert (Hg : forall y, (let! (b, _) := g y in Ok b) = encode w p rf k n vs y).
  { intros y. subst g. cbv beta. rewrite <- passed_ok, Hv. cbn [bind]. rewrite (encode_refines w p rf (proj2 Hp)). unfold foreign_of in Fo. destruct (p n) as [[da dt dp]|]; [destruct dt|]; try discriminate Fo; reflexivity. }
  clearbody g.
  assert (E : forall l, (let! ys := se_times g (List.length l) l in Ok (concat (map fst ys))) = (let! bs := mapM (encode w p rf k n vs) l in Ok (concat bs))).
  { induction l as [|v l IH]; [reflexivity|]. cbn [List.length se_times mapM]. rewrite <- Hg. destruct (g v) as [[b v']| | |]; try reflexivity. cbn [bind].
    destruct (se_times g (List.length l) l) as [ys|e1| |], (mapM (encode w p rf k n vs) l) as [bs|e2| |]; cbn [bind map concat fst] in *; congruence. }
  specialize (E xs). destruct (se_times g (List.length xs) xs) as [ys|e1| |]; cbn [bind] in *; exact E.
Qed.
Print Assumptions C72_array_write.

Definition alias_text : string := "type point(k: u8) = container { x: u8, y: u16 { k == 1u8 } };
type flat_point = point(0); type next(k: u8) = point(k + 1u8); type line(n: u8) = point(1)[n];".
Definition pt (x : Z) (y : option Z) : val := VStruct "point" [("x", VInt U8 x); ("y", VOpt (option_map (VInt U16) y))].
Example C72_nonvacuous : let p := program_of alias_text in prog_ok p 20 (prelude_marks []) = true /\ List.length p = 4%nat /\
  (exists params args, is_alias (prog p) "next" params "point" args /\ exists inp, bind_params prelude_world params [VInt U8 0] [] = Ok inp /\ passed prelude_world inp args = Ok [VInt U8 1]) /\
  (exists params args count, is_array (prog p) "line" params "point" args count /\ is_container (prog p) "point" /\
     exists inp, bind_params prelude_world params [VInt U8 2] [] = Ok inp /\ passed prelude_world inp args = Ok [VInt U8 1] /\ exists s, eval prelude_world (fun x => lookup x inp) (fun _ => None) count = Ok (VInt s 2)) /\
  decode prelude_world (prog p) 20 4 "next" [VInt U8 0] [5; 0; 6; 9] = Ok (VTup (pt 5 (Some 6)), [9]) /\
  decode prelude_world (prog p) 20 4 "flat_point" [] [5; 0; 6; 9] = Ok (VTup (pt 5 None), [0; 6; 9]) /\
  decode prelude_world (prog p) 20 4 "line" [VInt U8 2] [5; 0; 6; 7; 1; 0; 9] = Ok (VTup (VArr [pt 5 (Some 6); pt 7 (Some 256)]), [9]) /\
  encode prelude_world (prog p) 20 4 "line" [VInt U8 2] (VTup (VArr [pt 5 (Some 6); pt 7 (Some 256)])) = Ok [5; 0; 6; 7; 1; 0].
Proof.
  split; [vm_compute; reflexivity|]. split; [vm_compute; reflexivity|]. split; [|split; [|repeat split; vm_compute; reflexivity]].
  - do 2 eexists. split; [eexists; split; [vm_compute; reflexivity|]; repeat split|]. eexists. split; vm_compute; reflexivity.
  - do 3 eexists. split; [eexists; split; [vm_compute; reflexivity|]; repeat split|]. split; [do 4 eexists; split; [vm_compute; reflexivity|reflexivity]|].
    eexists. split; [vm_compute; reflexivity|]. split; [vm_compute; reflexivity|]. eexists. vm_compute. reflexivity.
Qed.
Print Assumptions C72_nonvacuous.

(** Arrays to the end of the input ([n[..]]): elements are read, each from where the one
    before it ended, until nothing is left. *)
Definition is_rest (p : program) (arr : string) (params : list Asg.param) (n : string) (args : list expr) : Prop :=
  exists d, p arr = Some d /\ d_params d = params /\ fa_xs (d_attr d) = [] /\ d_ty d = TArr (TRef n args) LRest.
Inductive read_all (f : list Z -> res ioerr (val * list Z)) : list Z -> list val -> Prop :=
| read_end : read_all f [] []
| read_more l v l' vs : f l = Ok (v, l') -> (List.length l' < List.length l)%nat -> read_all f l' vs -> read_all f l (v :: vs).

Lemma all_read f g (H : forall y, g y = f y) : forall fuel l vs, (List.length l < fuel)%nat -> (sd_all g fuel l = Ok vs <-> read_all f l vs).
Proof.
  induction fuel as [|fuel IH]; intros l vs L; [lia|]. cbn [sd_all]. destruct l as [|z l]; [split; [intros E; injection E as <-; constructor|intros E; inversion E; subst; [reflexivity|cbn in *; lia]]|].
  rewrite H. split.
  - destruct (f (z :: l)) as [[v l']| | |] eqn:E; try discriminate. cbn [bind]. destruct (List.length l' <? List.length (z :: l))%nat eqn:Lt; [|discriminate]. apply Nat.ltb_lt in Lt.
    destruct (sd_all g fuel l') as [xs| | |] eqn:R; try discriminate. cbn [bind]. intros Q. injection Q as <-. econstructor; [exact E|exact Lt|]. apply IH; [lia|exact R].
  - intros R. inversion R as [|? v l' xs E Lt R']; subst. rewrite E. cbn [bind]. destruct (Nat.ltb_spec (List.length l') (List.length (z :: l))); [|lia]. rewrite (proj2 (IH l' xs ltac:(lia)) R'). reflexivity.
Qed.

Theorem C72_rest_read : forall w p rf, world_suffixing w -> compiles p rf -> forall arr params n args, is_rest p arr params n args -> is_container p n ->
  forall k given inp vs l v rest, bind_params w params given [] = Ok inp -> passed w inp args = Ok vs ->
  decode w p rf (S k) arr given l = Ok (v, rest) <-> rest = [] /\ exists xs, v = VTup (VArr xs) /\ read_all (decode w p rf k n vs) l xs.
Proof.
  intros w p rf Hw Hp arr params n args (d & Hd & <- & Hx & Ht) C k given inp vs l v rest Hi Hv. destruct (container_kind p rf n args C) as (K & Fo).
  rewrite (decode_top w p rf Hw Hp k arr given d inp l Hd Hi). unfold sd_top. rewrite Ht, Hx. cbn [rev sd_xs sd_type sd_arr]. rewrite K.
  match goal with |- context [sd_all ?f ?m ?x] => set (g := f) end.
  assert (Hg : forall y, g y = decode w p rf k n vs y).
  { intros y. subst g. cbv beta. rewrite <- passed_ok, Hv. cbn [bind]. rewrite (proj1 (decode_refines w p rf Hw (proj1 Hp) k n vs y)). unfold foreign_of in Fo. destruct (p n) as [[da dt dp]|]; [destruct dt|]; try discriminate Fo; reflexivity. }
  clearbody g. split.
  - intros E. destruct (sd_all g (S (List.length l)) l) as [xs| | |] eqn:R; try discriminate. cbn [bind] in E. injection E as <- <-. split; [reflexivity|]. exists xs. split; [reflexivity|].
    apply (all_read _ g Hg (S (List.length l))); [lia|exact R].
  - intros (-> & xs & -> & R). rewrite (proj2 (all_read _ g Hg (S (List.length l)) l xs ltac:(lia)) R). reflexivity.
Qed.
Print Assumptions C72_rest_read.

Theorem C72_rest_write : forall w p rf, compiles p rf -> forall arr params n args, is_rest p arr params n args -> is_container p n ->
  forall k given inp vs xs, bind_params w params given [] = Ok inp -> passed w inp args = Ok vs ->
  encode w p rf (S k) arr given (VTup (VArr xs)) = let! bs := mapM (encode w p rf k n vs) xs in Ok (concat bs).
Proof.
  intros w p rf Hp arr params n args (d & Hd & <- & Hx & Ht) C k given inp vs xs Hi Hv. destruct (container_kind p rf n args C) as (K & Fo).
  rewrite (encode_top w p rf Hp k arr given d inp _ Hd Hi). unfold se_top. rewrite Ht, Hx. cbn [se_xs se_type se_arr]. rewrite K. cbn [arr_of bind]. unfold refuse.
  match goal with |- context [mapM ?f xs] => set (g := f) end.
  assert (Hg : forall y, (let! (b, _) := g y in Ok b) = encode w p rf k n vs y).
  { intros y. subst g. cbv beta. rewrite <- passed_ok, Hv. cbn [bind]. rewrite (encode_refines w p rf (proj2 Hp)). unfold foreign_of in Fo. destruct (p n) as [[da dt dp]|]; [destruct dt|]; try discriminate Fo; reflexivity. }
  clearbody g.
  assert (E : forall l, (let! ys := mapM g l in Ok (concat (map fst ys))) = (let! bs := mapM (encode w p rf k n vs) l in Ok (concat bs))).
  { induction l as [|v l IH]; [reflexivity|]. cbn [mapM]. rewrite <- Hg. destruct (g v) as [[b v']| | |]; try reflexivity. cbn [bind].
    destruct (mapM g l) as [ys|e1| |], (mapM (encode w p rf k n vs) l) as [bs|e2| |]; cbn [bind map concat fst] in *; congruence. }
  specialize (E xs). destruct (mapM g xs) as [ys|e1| |]; cbn [bind] in *; exact E.
Qed.
Print Assumptions C72_rest_write.

Definition rest_text : string := "type point(k: u8) = container { x: u8, y: u16 { k == 1u8 } }; type points(n: u8) = point(n)[..];".
Example C72_rest_nonvacuous : let p := program_of rest_text in compiles_list p 20 = true /\
  (exists params args, is_rest (prog p) "points" params "point" args /\ is_container (prog p) "point" /\
     exists inp, bind_params prelude_world params [VInt U8 1] [] = Ok inp /\ passed prelude_world inp args = Ok [VInt U8 1]) /\
  decode prelude_world (prog p) 20 4 "points" [VInt U8 1] [5; 0; 6; 7; 1; 0] = Ok (VTup (VArr [pt 5 (Some 6); pt 7 (Some 256)]), []) /\
  encode prelude_world (prog p) 20 4 "points" [VInt U8 1] (VTup (VArr [pt 5 (Some 6); pt 7 (Some 256)])) = Ok [5; 0; 6; 7; 1; 0].
Proof.
  split; [vm_compute; reflexivity|]. split; [|split; vm_compute; reflexivity].
  do 2 eexists. split; [eexists; split; [vm_compute; reflexivity|]; repeat split|]. split; [do 4 eexists; split; [vm_compute; reflexivity|reflexivity]|].
  eexists. split; vm_compute; reflexivity.
Qed.
Print Assumptions C72_rest_nonvacuous.
