(** Readers and writers stay within the sizes of Sizes.v. *)
From Verif Require Import ScalarFacts DecRef EncRef RtWf RoundTrip Sizes.
From Coq Require Import Lia.
Open Scope string_scope. Open Scope Z_scope. Open Scope list_scope.

Lemma within_any n : 0 <= n -> within anything n.
Proof. intros H. split; [exact H|exact I]. Qed.
Lemma within_exact n : within (exactly n) n.
Proof. split; cbn; lia. Qed.
Lemma within_exact_iff n k : within (exactly n) k <-> k = n.
Proof. split; [intros [A B]; cbn in *; lia|intros ->; apply within_exact]. Qed.
Lemma within_plus a b x y : within a x -> within b y -> within (plus a b) (x + y).
Proof. intros [A B] [C D]. unfold within, plus in *. cbn. split; [lia|]. destruct (snd a), (snd b); cbn; try exact I. lia. Qed.
Lemma within_times n a x xs : Z.of_nat (List.length xs) = n -> Forall (within a) xs -> x = fold_right Z.add 0 xs -> within (times n a) x.
Proof.
  intros <- H ->. unfold within, times. cbn [fst snd]. split.
  - induction H as [|y l [A _] _ IH]; cbn [List.length fold_right]; [lia|]. rewrite Nat2Z.inj_succ. lia.
  - destruct (snd a) as [h|] eqn:E; [|exact I]. cbn [option_map]. induction H as [|y l [_ B] _ IH]; cbn [List.length fold_right]; [lia|]. rewrite E in B. rewrite Nat2Z.inj_succ. lia.
Qed.
Lemma within_either_l a b x : within a x -> within (either a b) x.
Proof. intros [A B]. unfold within, either. cbn. split; [lia|]. destruct (snd a), (snd b); cbn; try exact I. lia. Qed.
Lemma within_either_r a b x : within b x -> within (either a b) x.
Proof. intros [A B]. unfold within, either. cbn. split; [lia|]. destruct (snd a), (snd b); cbn; try exact I. lia. Qed.

Lemma len_app {A} (a b : list A) : len (a ++ b) = len a + len b.
Proof. rewrite app_length. lia. Qed.

Lemma suffixing_any {A} (f : list Z -> res ioerr (A * list Z)) : suffixing f -> takes_within anything f.
Proof. intros H l x rest E. destruct (H _ _ _ E) as (j & Hj & ->). exists (Z.of_nat j). rewrite skipn_length. split; [lia|]. split; [apply within_any; lia|lia]. Qed.
Lemma takes_anything {A} a (f : list Z -> res ioerr (A * list Z)) : takes_within a f -> takes_within anything f.
Proof. intros H l x rest E. destruct (H _ _ _ E) as (n & E1 & _ & E2). exists n. split; [exact E1|]. split; [apply within_any, E2|exact E2]. Qed.
Lemma takes_read n : takes_within (exactly (Z.of_nat n)) (read_exact n).
Proof. intros l a b H. apply read_exact_ok in H as (-> & <-). exists (len a). rewrite len_app. split; [reflexivity|]. split; [apply within_exact|lia]. Qed.
Lemma takes_map {A B} a (f : list Z -> res ioerr (A * list Z)) (h : A -> res ioerr B) : takes_within a f -> takes_within a (fun l => let! (x, rest) := f l in let! y := h x in Ok (y, rest)).
Proof. intros H l x rest E. bi E y Ey. destruct y as [y r]. bi E z Ez. apply Ok_inj in E. injection E as <- <-. apply (H _ _ _ Ey). Qed.
Lemma takes_map0 {A B} a (f : list Z -> res ioerr (A * list Z)) (h : A -> B) : takes_within a f -> takes_within a (fun l => let! (x, rest) := f l in Ok (h x, rest)).
Proof. intros H l x rest E. bi E y Ey. destruct y as [y r]. apply Ok_inj in E. injection E as <- <-. apply (H _ _ _ Ey). Qed.

Lemma count_lit e n : count_of e = Some n -> literal e = Some n /\ 0 <= n < 2 ^ 32.
Proof. unfold count_of. destruct (literal e) as [z|]; [|discriminate]. destruct ((0 <=? z) && (z <? 2 ^ 32)) eqn:E; [|discriminate]. intros H. injection H as <-. apply andb_true_iff in E as (A & B). apply Z.leb_le in A. apply Z.ltb_lt in B. auto. Qed.
Lemma literal_type fty e z : literal e = Some z -> exists s, get_type fty e = Some (TyScalar s).
Proof. destruct e; cbn [literal get_type]; try discriminate; intros H; [|eauto]. destruct t; try discriminate. eauto. Qed.
Lemma in_range_wrap s z : in_range s z = true -> wrap s z = z.
Proof. intros H. apply wrap_id, H. Qed.
Lemma literal_eval w inp en e z : literal e = Some z -> forall v, eval w inp en e = Ok v -> exists s, v = VInt s z.
Proof.
  unfold eval. revert z. induction e; cbn [literal]; try discriminate; intros z H v E.
  - destruct t as [s| | | | | | |]; try discriminate. destruct (literal e) as [y|] eqn:El; [|discriminate]. destruct (in_range (es_scalar s) y) eqn:R; [|discriminate]. injection H as <-.
    destruct (literal_type (w_fty w) e y El) as (s' & Et). cbn [emit] in E. rewrite Et in E. cbn [reval] in E. bi E a Ea. destruct (IHe y eq_refl a Ea) as (s2 & ->). cbn [ras] in E. apply Ok_inj in E. subst v.
    rewrite in_range_wrap by exact R. eauto.
  - injection H as <-. cbn [emit reval] in E. apply Ok_inj in E. subst v. eauto.
Qed.

Section Dec.
  Variable w : world.
  Variable p : program.
  Variable rf : nat.
  Variable bf : string -> range.
  Variable br : string -> range.
  Hypothesis Hw : world_suffixing w.
  Hypothesis Hbf : world_sizes w bf.
  Variable inp : string -> option val.

  Section Read.
  Variable rec : string -> list val -> list Z -> res ioerr (val * list Z).
  Hypothesis Hrec : forall n vs, foreign_of p n = None -> takes_within (br n) (rec n vs).
  Notation size_of := (ty_size p rf bf br).

  Lemma takes_prim pr : takes_within (exactly (Z.of_nat (prim_size pr))) (sd_prim pr).
  Proof. apply takes_map0, takes_read. Qed.
  Lemma takes_repr d : takes_within (exactly (Z.of_nat (size (es_scalar (repr_rep d))))) (sd_repr d).
  Proof. apply takes_map, takes_read. Qed.
  Lemma takes_times a f n : takes_within a f -> takes_within (times (Z.of_nat n) a) (sd_times f n).
  Proof.
    intros H. assert (G : forall n l vs rest, sd_times f n l = Ok (vs, rest) -> exists xs, List.length xs = n /\ Forall (within a) xs /\ Forall (Z.le 0) xs /\ len l = fold_right Z.add 0 xs + len rest).
    { clear n. induction n as [|n IH]; cbn [sd_times]; intros l vs rest E; [apply Ok_inj in E; injection E as <- <-; exists []; repeat split; constructor|].
      bi E y Ey. destruct y as [v l1]. bi E z Ez. destruct z as [vs' l2]. apply Ok_inj in E. injection E as <- <-. destruct (H _ _ _ Ey) as (k & K1 & K2 & K3). destruct (IH _ _ _ Ez) as (xs & X1 & X2 & X3 & X4).
      exists (k :: xs). cbn [List.length fold_right]. repeat split; [lia|constructor; assumption|constructor; assumption|lia]. }
    intros l vs rest E. destruct (G n l vs rest E) as (xs & X1 & X2 & X3 & X4). exists (fold_right Z.add 0 xs). split; [exact X4|]. split; [apply (within_times _ _ _ xs); [lia|exact X2|reflexivity]|].
    clear -X3. induction X3; cbn; lia.
  Qed.
  Lemma all_any {A} (f : list Z -> res ioerr A) : takes_within anything (fun l => let! a := f l in Ok (a, [])).
  Proof. apply suffixing_any. intros l a rest H. bi H x Ex. apply Ok_inj in H. injection H as <- <-. exists (List.length l). split; [lia|]. rewrite skipn_all. reflexivity. Qed.
  Lemma until_any fill term f a : takes_within a f -> forall fuel, takes_within anything (sd_until fill term f fuel).
  Proof.
    intros H. induction fuel as [|fuel IH]; intros l x rest E; [discriminate E|]. cbn [sd_until] in E.
    destruct (_ =? 0)%nat; [apply Ok_inj in E; injection E as <- <-; exists 0; split; [lia|]; split; [apply within_any; lia|lia]|].
    destruct (_ <? _)%nat; [discriminate E|]. destruct (zlist_eqb _ _).
    - apply Ok_inj in E. injection E as <- <-. exists (len l - len (skipn (List.length term) l)). rewrite skipn_length. split; [lia|]. split; [apply within_any; lia|lia].
    - bi E y Ey. destruct y as [v l1]. destruct (_ <? _)%nat; [|discriminate E]. bi E z Ez. destruct z as [vs l2]. apply Ok_inj in E. injection E as <- <-.
      destruct (H _ _ _ Ey) as (n & N1 & _ & N2). destruct (IH _ _ _ Ez) as (k & K1 & _ & K2). exists (n + k). split; [lia|]. split; [apply within_any; lia|lia].
  Qed.

  Lemma type_takes t en : takes_within (size_of t) (sd_type w p rf inp rec en t).
  Proof.
    induction t using ty_ind'; cbn [ty_size Spec.sd_type].
    - apply takes_prim. - apply (takes_prim PF32). - apply (takes_prim PF64). - apply (takes_prim PBool). - apply (takes_repr (RpEnum d)). - apply (takes_repr (RpBits d)).
    - apply (proj1 Hbf).
    - intros l x rest E. bi E vs Evs. destruct (foreign_of p n) as [f|] eqn:Ef.
      + unfold foreign_of in Ef. destruct (p n) as [[? t ?]|]; [|discriminate Ef]. destruct t; try discriminate Ef. injection Ef as ->. apply (proj1 Hbf _ _ _ _ _ E).
      + apply (Hrec n vs Ef l x rest). unfold foreign_of in Ef. destruct (p n) as [[? t ?]|]; [|exact E]. destruct t; try exact E. discriminate Ef.
    - unfold sd_arr. destruct l as [e| |e].
      + intros l x rest E. bi E nv Env. destruct (count_of e) as [z|] eqn:Ec.
        * destruct (count_lit _ _ Ec) as (El & Hz). destruct (literal_eval _ _ _ _ _ El _ Env) as (s & ->).
          destruct (kind_of (resolved p rf t)) as [pr|d|].
          -- assert (E' : (let! n := arr_size (w_chk w) (prim_size pr) (VInt s z) in read_prims pr n l) = Ok (x, rest)) by (destruct pr; [discriminate E|exact E..]). clear E. bi E' n En. unfold read_prims in E'.
             assert (Hn : Z.of_nat n = z * Z.of_nat (prim_size pr)).
             { assert (Hs : (prim_size pr <= 16)%nat) by (destruct pr as [| | |sc]; cbn; try lia; destruct (es_scalar sc); cbn; lia). cbn [arr_size] in En. destruct (_ || _); [discriminate En|]. apply cap_ok in En as (En & _). rewrite Z.mod_small in En by nia. lia. }
             apply (takes_map0 _ _ _ (takes_read n)) in E'. cbn [exactly] in *. rewrite Hn in E'. exact E'.
          -- bi E n En. unfold read_reprs in E.
             assert (Hn : Z.of_nat n = z * Z.of_nat (size (es_scalar (repr_rep d)))).
             { assert (Hs : (size (es_scalar (repr_rep d)) <= 16)%nat) by (destruct (es_scalar (repr_rep d)); cbn; lia). cbn [arr_size] in En. destruct (_ || _); [discriminate En|]. apply cap_ok in En as (En & _). rewrite Z.mod_small in En by nia. lia. }
             bi E y Ey. destruct y as [raw r1]. bi E vs Evs. apply Ok_inj in E. injection E as <- <-. destruct (takes_read n _ _ _ Ey) as (k & K1 & K2 & K3). exists k. rewrite Hn in K2. repeat split; assumption || apply K2.
          -- bi E n En. cbn [len_of] in En. apply cap_ok in En as (-> & _). bi E y Ey. destruct y as [vs r1]. apply Ok_inj in E. injection E as <- <-. apply (takes_times _ _ n IHt _ _ _ Ey).
        * destruct (kind_of (resolved p rf t)) as [pr|d|].
          -- assert (E' : (let! n := arr_size (w_chk w) (prim_size pr) nv in read_prims pr n l) = Ok (x, rest)) by (destruct pr; [discriminate E|exact E..]). bi E' n En. apply (takes_anything _ _ (takes_map0 _ _ _ (takes_read n)) _ _ _ E').
          -- bi E n En. unfold read_reprs in E. bi E y Ey. destruct y as [raw r1]. bi E vs Evs. apply Ok_inj in E. injection E as <- <-. apply (takes_anything _ _ (takes_read n) _ _ _ Ey).
          -- bi E n En. bi E y Ey. destruct y as [vs r1]. apply Ok_inj in E. injection E as <- <-. apply (takes_anything _ _ (takes_times _ _ n IHt) _ _ _ Ey).
      + intros l x rest E. destruct (kind_of (resolved p rf t)) as [pr|d|].
        * assert (E' : x = VArr (map (prim_of pr) (sd_chunks (prim_size pr) l)) /\ rest = []) by (destruct pr; [discriminate E|..]; apply Ok_inj in E; injection E as <- <-; auto). destruct E' as [-> ->].
          exists (len l). cbn. split; [lia|]. split; [apply within_any; lia|lia].
        * bi E vs Evs. apply Ok_inj in E. injection E as <- <-. exists (len l). cbn. split; [lia|]. split; [apply within_any; lia|lia].
        * bi E vs Evs. apply Ok_inj in E. injection E as <- <-. exists (len l). cbn. split; [lia|]. split; [apply within_any; lia|lia].
      + intros l x rest E. bi E tv Et. bi E tb Etb. bi E y Ey. destruct y as [vs r1]. apply Ok_inj in E. injection E as <- <-. apply (until_any _ _ _ _ IHt _ _ _ _ Ey).
    - intros l x rest E. discriminate E.
  Qed.

  Definition cont_items (items : list (fattr * ty)) : range :=
    fold_right (fun f r => plus (let body := wrapped (fst f) (if fa_pad (fst f) then pad_size (snd f) else size_of (snd f)) in match fa_cond (fst f) with None => body | Some _ => maybe body end) r) (exactly 0) items.
  Lemma size_cont len items : size_of (TCont len false items) = cont_items items.
  Proof. cbn [ty_size]. unfold cont_items. induction items as [|[a t] items IH]; [reflexivity|]. cbn [fold_right fst snd]. rewrite <- IH. reflexivity. Qed.

  Lemma xs_takes {A} en xs a (k : list Z -> res ioerr (A * list Z)) : takes_within a k -> takes_within (match xs with [] => a | _ => anything end) (sd_xs w inp en xs k).
  Proof.
    intros H. destruct xs as [|x xs]; [exact H|]. assert (G : forall xs, takes_within anything (sd_xs w inp en xs k)).
    { clear x xs. induction xs as [|x xs IH]; [apply (takes_anything _ _ H)|]. intros l y rest E. cbn [sd_xs] in E. bi E b Eb. destruct b; [|apply (IH _ _ _ E)].
      bi E vs Evs. bi E z Ez. destruct z as [plain r1]. bi E q Eqq. destruct q as [a0 r2]. apply Ok_inj in E. injection E as <- <-. apply (suffixing_any _ (proj2 Hw _ _) _ _ _ Ez). }
    apply G.
  Qed.
  Lemma rev_nil {A} (l : list A) {B} (a b : B) : match rev l with [] => a | _ => b end = match l with [] => a | _ => b end.
  Proof. destruct l as [|x l]; [reflexivity|]. cbn. destruct (rev l); reflexivity. Qed.

  Lemma limit_takes {A} en lo a (k : list Z -> res ioerr (A * list Z)) : takes_within a k -> takes_within a (sd_limit w inp en lo k).
  Proof.
    intros H. unfold sd_limit. destruct lo as [e|]; [|exact H]. intros l x rest E. bi E v Ev. bi E n En. bi E y Ey. destruct y as [y r1]. apply Ok_inj in E. injection E as <- <-.
    destruct (H _ _ _ Ey) as (k0 & K1 & K2 & K3). exists k0. split; [|split; assumption]. rewrite len_app. rewrite <- (firstn_skipn n l) at 1. rewrite len_app. lia.
  Qed.

  Lemma field_takes (f : fattr * ty) en : takes_within (if fa_pad (fst f) then pad_size (snd f) else size_of (snd f)) (sd_complex w p rf inp rec (fst f) (snd f) en) ->
    takes_within (let body := wrapped (fst f) (if fa_pad (fst f) then pad_size (snd f) else size_of (snd f)) in match fa_cond (fst f) with None => body | Some _ => maybe body end) (fun l => sd_field w inp (sd_item w p rf inp rec f) en l).
  Proof.
    destruct f as [a t]. cbn [fst snd]. intros H. unfold sd_field, sd_item. cbn [fst snd].
    assert (B : takes_within (wrapped a (if fa_pad a then pad_size t else size_of t)) (sd_xs w inp en (rev (fa_xs a)) (sd_complex w p rf inp rec a t en))).
    { unfold wrapped. rewrite <- (rev_nil (fa_xs a)). apply xs_takes, H. }
    cbv zeta. destruct (fa_cond a) as [e|]; [|exact B]. intros l x rest E. bi E c Ec. destruct (fa_pad a).
    - destruct (B _ _ _ E) as (n & N1 & N2 & N3). exists n. split; [exact N1|]. split; [apply within_either_r, N2|exact N3].
    - bi E b Eb. destruct b.
      + bi E y Ey. destruct y as [vs r1]. apply Ok_inj in E. injection E as <- <-. destruct (B _ _ _ Ey) as (n & N1 & N2 & N3). exists n. split; [exact N1|]. split; [apply within_either_r, N2|exact N3].
      + apply Ok_inj in E. injection E as <- <-. exists 0. split; [lia|]. split; [apply within_either_l, within_exact|lia].
  Qed.
  Lemma items_take items : Forall (fun f => forall en, takes_within (if fa_pad (fst f) then pad_size (snd f) else size_of (snd f)) (sd_complex w p rf inp rec (fst f) (snd f) en)) items ->
    forall en, takes_within (cont_items items) (sd_items w inp (map (sd_item w p rf inp rec) items) en).
  Proof.
    induction 1 as [|f items Hf _ IH]; intros en l x rest E; cbn [map sd_items] in E.
    - apply Ok_inj in E. injection E as <- <-. exists 0. split; [lia|]. split; [apply within_exact|lia].
    - bi E y Ey. destruct y as [vs l1]. bi E z Ez. destruct z as [vs' l2]. apply Ok_inj in E. injection E as <- <-.
      destruct (field_takes f en (Hf en) _ _ _ Ey) as (n & N1 & N2 & N3). destruct (IH _ _ _ _ Ez) as (k & K1 & K2 & K3). exists (n + k). split; [lia|]. split; [|lia]. cbn [cont_items fold_right]. apply within_plus; assumption.
  Qed.
  Lemma pad_takes a t en : fa_pad a = true -> takes_within (pad_size t) (sd_complex w p rf inp rec a t en).
  Proof.
    intros Hp. assert (X : forall l x rest, sd_complex w p rf inp rec a t en l = Ok (x, rest) -> exists el e n v, t = TArr el (LFixed e) /\ ev w inp en e = Ok v /\ len_of v = Ok n /\ exists r, read_exact n l = Ok (r, rest)).
    { intros l x rest E. destruct t; cbn [sd_complex] in E; rewrite Hp in E; try discriminate E. destruct l0; try discriminate E. bi E v Ev. bi E n En. bi E y Ey. destruct y as [r r1]. apply Ok_inj in E. injection E as <- <-. eauto 10. }
    intros l x rest E. destruct (X _ _ _ E) as (el & e & n & v & -> & Ev & En & r & Er). destruct (takes_read n _ _ _ Er) as (k & K1 & K2 & K3). exists k. split; [exact K1|]. split; [|exact K3]. cbn [pad_size].
    destruct (count_of e) as [z|] eqn:Ec; [|apply within_any, K3]. destruct (count_lit _ _ Ec) as (El & Hz). destruct (literal_eval _ _ _ _ _ El _ Ev) as (s & ->). cbn [len_of] in En. apply cap_ok in En as (-> & _). exact K2.
  Qed.
  Lemma complex_takes t : forall a en, takes_within (if fa_pad a then pad_size t else size_of t) (sd_complex w p rf inp rec a t en).
  Proof.
    induction t using ty_ind'; intros a en; (destruct (fa_pad a) eqn:Hp; [apply pad_takes, Hp|]).
    1-9: intros l' x rest E; cbn [sd_complex] in E; rewrite Hp in E; bi E y Ey; destruct y as [v r1]; apply Ok_inj in E; injection E as <- <-; apply (type_takes _ en _ _ _ Ey).
    intros l x rest E. cbn [sd_complex] in E. rewrite Hp in E. destruct tagged; [discriminate E|]. rewrite size_cont. revert l x rest E. apply limit_takes. apply (items_take items).
    eapply Forall_impl; [|exact H]. intros f Hf en0. apply Hf.
  Qed.
  Lemma variants_take nm items : takes_within (variants_size p rf bf br items) (sd_variants w p rf inp rec nm items).
  Proof.
    induction items as [|[a t] items IH]; intros l x rest E; [discriminate E|]. cbn [sd_variants] in E. cbn [variants_size].
    assert (B : takes_within (wrapped a (if fa_pad a then pad_size t else size_of t)) (sd_xs w inp [] (rev (fa_xs a)) (sd_complex w p rf inp rec a t []))).
    { unfold wrapped. rewrite <- (rev_nil (fa_xs a)). apply xs_takes, complex_takes. }
    bi E b Eb. destruct b.
    - bi E y Ey. destruct y as [vs r1]. assert (r1 = rest) by (destruct (is_cont t); [apply Ok_inj in E; injection E as _ <-; reflexivity|destruct vs as [|[? ?] ?]; [discriminate E|apply Ok_inj in E; injection E as _ <-; reflexivity]]). subst r1.
      destruct (B _ _ _ Ey) as (n & N1 & N2 & N3). exists n. split; [exact N1|]. split; [|exact N3]. destruct (fa_cond a); [apply within_either_l|]; exact N2.
    - destruct (fa_cond a); [|apply Ok_inj in Eb; discriminate Eb]. destruct (IH _ _ _ E) as (n & N1 & N2 & N3). exists n. split; [exact N1|]. split; [apply within_either_r, N2|exact N3].
  Qed.
  Lemma top_takes d : takes_within (decl_size p rf bf br d) (sd_top w p rf inp rec d).
  Proof.
    unfold sd_top, decl_size. rewrite <- (rev_nil (fa_xs (d_attr d))). 
    assert (G : takes_within (match d_ty d with TForeign _ => anything | TCont _ true items => variants_size p rf bf br items | t => size_of t end) (fun l => match d_ty d with
      | TCont len true items => sd_limit w inp [] len (sd_variants w p rf inp rec (fa_name (d_attr d)) items) l
      | TCont len false items => let! (vs, l) := sd_limit w inp [] len (sd_items w inp (map (sd_item w p rf inp rec) items) []) l in Ok (VStruct (fa_name (d_attr d)) vs, l)
      | TEnum _ | TBits _ | TForeign _ => sd_type w p rf inp rec [] (d_ty d) l
      | t => let! (v, l) := sd_type w p rf inp rec [] t l in Ok (VTup v, l)
      end)).
    { destruct (d_ty d) as [e| | | |de|db|f|n args|el lc|lo tg items]; try (apply takes_map0; apply type_takes).
      - apply (type_takes (TEnum de)). - apply (type_takes (TBits db)). - apply (takes_anything _ _ (type_takes (TForeign f) [])).
      - destruct tg; [apply limit_takes, variants_take|]. rewrite size_cont. apply takes_map0, limit_takes, items_take. apply Forall_forall. intros f _ en. apply complex_takes. }
    intros l x rest E. revert l x rest E. apply (xs_takes [] (rev (fa_xs (d_attr d))) _ _ G).
  Qed.
  End Read.
End Dec.

Lemma refuse_inv {A} m ok (k : res ioerr A) x : refuse m ok k = Ok x -> k = Ok x.
Proof. unfold refuse. destruct m; [destruct ok; [auto|discriminate]|auto]. Qed.
Lemma prim_enc_size pr v b : prim_enc pr v = Ok b -> List.length b = prim_size pr.
Proof.
  destruct pr, v; cbn [prim_enc]; try discriminate; try (destruct (_ && _) || destruct (in_range _ _); [|discriminate]); intros H; apply Ok_inj in H; subst b; try reflexivity; apply scalar_bytes_length.
Qed.
Lemma repr_enc_size d v b : repr_enc d v = Ok b -> List.length b = size (es_scalar (repr_rep d)).
Proof.
  destruct d, v; cbn [repr_enc]; try discriminate; (destruct (_ : {_ = _} + {_}); [|discriminate]); repeat (match goal with |- match ?x with _ => _ end = _ -> _ => destruct x; [|discriminate] end);
    intros H; apply Ok_inj in H; subst b; apply scalar_bytes_length.
Qed.
Lemma mapM_size {A} (f : A -> res ioerr (list Z)) k : (forall x b, f x = Ok b -> List.length b = k) -> forall l bs, mapM f l = Ok bs -> len (concat bs) = len l * Z.of_nat k.
Proof.
  intros H. induction l as [|x l IH]; cbn [mapM]; intros bs E; [apply Ok_inj in E; subst; cbn; lia|]. bi E b Eb. bi E bs' Ebs. apply Ok_inj in E. subst bs. cbn [concat List.length]. rewrite len_app, (IH _ Ebs), (H _ _ Eb). lia.
Qed.

Section Enc.
  Variable w : world.
  Variable p : program.
  Variable rf : nat.
  Variable bf : string -> range.
  Variable br : string -> range.
  Hypothesis Hbf : world_sizes w bf.
  Variable inp : string -> option val.
  Variable m : option good.
  Variable erec : string -> list val -> val -> res ioerr (list Z * val).
  Hypothesis Hrec : forall n vs v b v', foreign_of p n = None -> erec n vs v = Ok (b, v') -> within (br n) (len b).
  Notation size_of := (ty_size p rf bf br).
  Notation range_of f := (let body := wrapped (fst f) (if fa_pad (fst f) then pad_size (snd f) else size_of (snd f)) in match fa_cond (fst f) with None => body | Some _ => maybe body end).

  Lemma foreign_gives f vs v b v' : se_foreign w m f vs v = Ok (b, v') -> within (bf f) (len b).
  Proof. unfold se_foreign. intros H. bi H y Ey. apply refuse_inv, Ok_inj in H. injection H as <- <-. apply (proj2 Hbf _ _ _ _ Ey). Qed.
  Lemma times_gives f a : (forall v b v', f v = Ok (b, v') -> within a (len b)) -> forall n vs xs, se_times f n vs = Ok xs -> within (times (Z.of_nat n) a) (len (concat (map fst xs))).
  Proof.
    intros H n vs xs E. apply (within_times _ _ _ (map (fun x => len (fst x)) xs)).
    - rewrite map_length. f_equal. revert vs xs E. induction n as [|n IH]; intros vs xs E; cbn [se_times] in E; [apply Ok_inj in E; subst; reflexivity|]. destruct vs as [|v vs]; [discriminate E|]. bi E x Ex. bi E ys Ey. apply Ok_inj in E. subst xs. cbn. f_equal. eapply IH, Ey.
    - revert vs xs E. induction n as [|n IH]; intros vs xs E; cbn [se_times] in E; [apply Ok_inj in E; subst; constructor|]. destruct vs as [|v vs]; [discriminate E|]. bi E x Ex. bi E ys Ey. apply Ok_inj in E. subst xs. destruct x as [b v']. constructor; [eapply H, Ex|eapply IH, Ey].
    - clear. induction xs as [|x xs IH]; [reflexivity|]. cbn [map concat fold_right]. rewrite len_app, IH. reflexivity.
  Qed.

  Lemma type_gives t en : forall v b v', se_type w p rf inp m erec en t v = Ok (b, v') -> within (size_of t) (len b).
  Proof.
    assert (PR : forall pr v b v', se_prim pr v = Ok (b, v') -> within (exactly (Z.of_nat (prim_size pr))) (len b)).
    { intros pr v b v' H. unfold se_prim in H. bi H y Ey. apply Ok_inj in H. injection H as <- <-. rewrite (prim_enc_size _ _ _ Ey). apply within_exact. }
    assert (RP : forall d v b v', se_repr m d v = Ok (b, v') -> within (exactly (Z.of_nat (size (es_scalar (repr_rep d))))) (len b)).
    { intros d v b v' H. unfold se_repr in H. bi H y Ey. apply refuse_inv, Ok_inj in H. injection H as <- <-. rewrite (repr_enc_size _ _ _ Ey). apply within_exact. }
    induction t using ty_ind'; cbn [ty_size Spec.se_type]; intros v b v' E.
    - apply (PR _ _ _ _ E). - apply (PR PF32 _ _ _ E). - apply (PR PF64 _ _ _ E). - apply (PR PBool _ _ _ E). - apply (RP (RpEnum d) _ _ _ E). - apply (RP (RpBits d) _ _ _ E).
    - apply (foreign_gives _ _ _ _ _ E).
    - bi E vs Evs. destruct (foreign_of p n) as [f|] eqn:Ef.
      + unfold foreign_of in Ef. destruct (p n) as [[? t ?]|]; [|discriminate Ef]. destruct t; try discriminate Ef. injection Ef as ->. apply (foreign_gives _ _ _ _ _ E).
      + apply (Hrec n vs v b v' Ef). unfold foreign_of in Ef. destruct (p n) as [[? t ?]|]; [|exact E]. destruct t; try exact E. discriminate Ef.
    - destruct l as [e| |e]; [|apply within_any; lia|apply within_any; lia]. destruct (count_of e) as [z|] eqn:Ec; [|apply within_any; lia]. destruct (count_lit _ _ Ec) as (El & Hz).
      unfold se_arr in E. bi E nv Env. destruct (literal_eval _ _ _ _ _ El _ Env) as (s & ->).
      assert (BULK : forall (f : val -> res ioerr (list Z)) k g, (forall x b, f x = Ok b -> List.length b = k) ->
        (let! vs := arr_of v in let! z := of_some (vint (VInt s z)) in if z mod 2 ^ 64 =? len vs then let! bs := mapM f vs in refuse m (g vs) (Ok (concat bs, v)) else Panic) = Ok (b, v') -> within (times z (exactly (Z.of_nat k))) (len b)).
      { intros f k g Hf H. bi H vs Evs. cbn [vint of_some bind] in H. destruct (z mod 2 ^ 64 =? len vs) eqn:Q; [|discriminate H]. apply Z.eqb_eq in Q. rewrite Z.mod_small in Q by lia. bi H bs Ebs. apply refuse_inv, Ok_inj in H. injection H as <- <-.
        rewrite (mapM_size f k Hf _ _ Ebs), <- Q. unfold times, exactly. cbn [fst snd option_map]. apply within_exact. }
      destruct (kind_of (resolved p rf t)) as [pr|d|].
      + destruct pr; [discriminate E|..]; (eapply BULK; [|exact E]); intros x y; apply (prim_enc_size).
      + eapply (BULK _ _ (fun vs => (z =? len vs) && fits (size (es_scalar (repr_rep d))) vs && forallb (repr_canon d) vs)); [|exact E]. intros x y. apply repr_enc_size.
      + cbn [vint of_some bind] in E. bi E vs Evs. bi E xs Exs. apply refuse_inv, Ok_inj in E. injection E as <- <-. rewrite <- (Z2Nat.id z) at 1 by lia. eapply times_gives; [|exact Exs]. intros x y y'. apply IHt.
    - discriminate E.
  Qed.

  Lemma xs_gives {A} en xs a (k : res ioerr (list Z * A)) : (forall b y, k = Ok (b, y) -> within a (len b)) -> forall b y, se_xs w inp m en xs k = Ok (b, y) -> within (match xs with [] => a | _ => anything end) (len b).
  Proof. intros H b y E. destruct xs; [apply (H _ _ E)|apply within_any; lia]. Qed.
  Lemma limit_gives {A} en lo pend a (k : res ioerr (list Z * A)) : (forall b y, k = Ok (b, y) -> within a (len b)) -> forall b y, se_limit w inp m en lo pend k = Ok (b, y) -> within a (len b).
  Proof. intros H b y E. unfold se_limit in E. destruct lo; [|apply (H _ _ E)]. destruct pend; [apply (H _ _ E)|]. bi E v Ev. bi E n En. bi E z Ez. destruct z as [b0 y0]. apply refuse_inv, Ok_inj in E. injection E as <- <-. apply (H _ _ Ez). Qed.

  Definition fgives (f : seitem) (a : range) : Prop := forall en v cond pend b r, se_field w inp m f en v cond pend = Ok (b, r) -> within a (len b).
  Definition cgives (f : fattr * ty) : Prop := forall en v cond pend b vs, se_complex w p rf inp m erec (fst f) (snd f) en v cond pend = Ok (b, vs) -> within (if fa_pad (fst f) then pad_size (snd f) else size_of (snd f)) (len b).

  Lemma field_gives f : cgives f -> fgives (se_item w p rf inp m erec f) (range_of f).
  Proof.
    destruct f as [a t]. intros H en v cond pend b r E. unfold se_field, se_item in E. cbn [fst snd] in *.
    assert (B : forall vr c b r, se_xs w inp m en (fa_xs a) (let! v := vr in let! (b, vs) := se_complex w p rf inp m erec a t en v c pend in Ok (b, (vs, List.length b))) = Ok (b, r) -> within (wrapped a (if fa_pad a then pad_size t else size_of t)) (len b)).
    { intros vr c b0 r0 E0. unfold wrapped. revert b0 r0 E0. apply xs_gives. intros b0 r0 E0. bi E0 y Ey. bi E0 q Eqq. destruct q as [b1 vs1]. apply Ok_inj in E0. injection E0 as <- <-. apply (H _ _ _ _ _ _ Eqq). }
    cbv zeta. destruct (fa_cond a) as [e|]; [|apply (B _ _ _ _ E)]. bi E c Ec. bi E c' Ec'. destruct c'.
    - bi E y Ey. destruct y as [b1 [vs1 n1]]. apply Ok_inj in E. injection E as <- <-. apply within_either_r, (B _ _ _ _ Ey).
    - apply Ok_inj in E. injection E as <- <-. apply within_either_l, within_exact.
  Qed.

  Lemma items_give items : Forall cgives items -> forall en cond out vs0 wt r vs W, match wt with None => W = exactly 0 | Some x => fgives (wt_item x) W end ->
    se_items w inp m (map (se_item w p rf inp m erec) items) en cond out vs0 wt = Ok (r, vs) ->
    exists a b, len r = len out + match wt with None => 0 | Some x => len (wt_bytes x) end + a + b /\ within W a /\ within (cont_items p rf bf br items) b.
  Proof.
    induction 1 as [|f items Hf _ IH]; intros en cond out vs0 wt r vs W HW E; cbn [map se_items] in E.
    - destruct wt; [discriminate E|]. apply Ok_inj in E. injection E as <- <-. subst W. exists 0, 0. split; [lia|]. split; apply within_exact.
    - pose proof (field_gives f Hf) as HF. destruct f as [a t]. unfold se_item in E at 1. cbn [fst snd] in E. cbn [cont_items fold_right fst snd].
      change (a, t, se_complex w p rf inp m erec a t) with (se_item w p rf inp m erec (a, t)) in E.
      destruct (fa_calc a) as [e|]; [destruct (blen_calls e) as [[|c [|]]|]; [| |discriminate E|discriminate E]|].
      2: { destruct wt as [x|]; [discriminate E|]. subst W.
        match type of E with se_items _ _ _ _ _ _ _ _ (Some ?x0) = _ => destruct (IH _ _ _ _ (Some x0) _ _ _ HF E) as (a0 & b2 & L & A & B2) end. cbn [wt_bytes List.length fst snd] in L, A.
        exists 0, (a0 + b2). split; [lia|]. split; [apply within_exact|]. apply within_plus; assumption. }
      all: bi E v Ev; bi E y Ey; destruct y as [b1 [vs1 n1]]; pose proof (HF _ _ _ _ _ _ Ey) as B1; cbn [fst snd] in B1; (destruct wt as [x|];
        [ destruct (_ && _);
          [ bi E e' Ee'; bi E cv Ecv; bi E q Eqq; destruct q as [b0 [vs2 n2]]; pose proof (HW _ _ _ _ _ _ Eqq) as B0;
            assert (E2 : se_items w inp m (map (se_item w p rf inp m erec) items) ((fa_name (fst (fst (wt_item x))), cv) :: (blen_name (fa_name a), VInt U64 (Z.of_nat n1)) :: en) cond (out ++ b0 ++ wt_bytes x ++ b1) (vs0 ++ vs2 ++ wt_vals x ++ vs1) None = Ok (r, vs));
            [ destruct m; [|exact E]; destruct (cont_len t); [|exact E]; bi E lv Elv; bi E lim Elim; destruct (_ =? _)%nat; [exact E|discriminate E] |];
            destruct (IH _ _ _ _ None _ _ (exactly 0) eq_refl E2) as (a0 & b2 & L & A & B2); apply within_exact_iff in A; subst a0; rewrite !len_app in L; exists (len b0), (len b1 + b2); split; [lia|]; split; [exact B0|]; apply within_plus; assumption
          | match type of E with se_items _ _ _ _ _ _ _ _ ?q0 = _ => destruct (IH _ _ _ _ q0 _ _ W HW E) as (a0 & b2 & L & A & B2) end; cbn [wt_bytes] in L; rewrite len_app in L; exists a0, (len b1 + b2); split; [lia|]; split; [exact A|]; apply within_plus; assumption ]
        | destruct (IH _ _ _ _ None _ _ W HW E) as (a0 & b2 & L & A & B2); rewrite len_app in L; exists a0, (len b1 + b2); split; [lia|]; split; [exact A|]; apply within_plus; assumption ]).
  Qed.
  Lemma cont_gives items en cond b vs : Forall cgives items -> se_items w inp m (map (se_item w p rf inp m erec) items) en cond [] [] None = Ok (b, vs) -> within (cont_items p rf bf br items) (len b).
  Proof. intros H E. destruct (items_give items H _ _ _ _ None _ _ (exactly 0) eq_refl E) as (a0 & b2 & L & A & B2). apply within_exact_iff in A. subst a0. cbn in L. rewrite L. exact B2. Qed.

  Lemma complex_gives t : forall a, cgives (a, t).
  Proof.
    assert (PAD : forall t a, fa_pad a = true -> cgives (a, t)).
    { intros t0 a Hp en v cond pend b vs E. cbn [fst snd] in *. rewrite Hp. 
      assert (X : exists el e n v, t0 = TArr el (LFixed e) /\ ev w inp en e = Ok v /\ len_of v = Ok n /\ b = repeat 0 n).
      { destruct t0; cbn [se_complex] in E; rewrite Hp in E; try discriminate E. destruct l; try discriminate E. bi E nv Env. bi E n En. apply Ok_inj in E. injection E as <- <-. eauto 10. }
      destruct X as (el & e & n & nv & -> & Ev & En & ->). cbn [pad_size]. destruct (count_of e) as [z|] eqn:Ec; [|apply within_any; lia]. destruct (count_lit _ _ Ec) as (El & Hz).
      destruct (literal_eval _ _ _ _ _ El _ Ev) as (s & ->). cbn [len_of] in En. apply cap_ok in En as (-> & _). rewrite repeat_length. apply within_exact. }
    induction t using ty_ind'; intros a; (destruct (fa_pad a) eqn:Hp; [apply PAD, Hp|]); intros en v cond pend b vs E; cbn [fst snd] in *; rewrite Hp.
    1-9: cbn [se_complex] in E; rewrite Hp in E; bi E y Ey; destruct y as [b1 v1]; apply Ok_inj in E; injection E as <- <-; apply (type_gives _ _ _ _ _ Ey).
    cbn [se_complex] in E. rewrite Hp in E. destruct tagged; [discriminate E|]. rewrite size_cont. revert b vs E. apply limit_gives. intros b vs E. bi E en' Een. eapply cont_gives; [|exact E].
    eapply Forall_impl; [|exact H]. intros f Hf. destruct f as [a0 t0]. apply Hf.
  Qed.
  Lemma all_give items : Forall cgives items.
  Proof. apply Forall_forall. intros [a t] _. apply complex_gives. Qed.

  Lemma variants_give nm items v : forall b v', se_variants w p rf inp m erec nm items v = Ok (b, v') -> within (variants_size p rf bf br items) (len b).
  Proof.
    induction items as [|[a t] items IH]; intros b v' E; cbn [se_variants] in E; cbn [variants_size].
    - apply refuse_inv, Ok_inj in E. injection E as <- <-. apply within_exact.
    - bi E c Ec. destruct c.
      + assert (B : within (wrapped a (if fa_pad a then pad_size t else size_of t)) (len b)); [|destruct (fa_cond a); [apply within_either_l|]; exact B].
        destruct v; try discriminate E; (destruct (String.eqb nm _); [|discriminate E]); (destruct (String.eqb (fa_name a) _); [|discriminate E]).
        * destruct (is_cont t); [discriminate E|]. bi E y Ey. destruct y as [b1 vs1]. assert (b1 = b) by (destruct vs1 as [|[? ?] ?]; [discriminate E|apply Ok_inj in E; injection E as <- <-; reflexivity]). subst b1.
          unfold wrapped. revert b vs1 Ey E. intros b vs1 Ey _. revert b vs1 Ey. apply xs_gives. intros b1 vs2 E1. apply (complex_gives t a _ _ _ _ _ _ E1).
        * destruct t as [| | | | | | | | |lo tg sub]; try discriminate E. bi E en Een. bi E en1 Een1. bi E y Ey. destruct y as [b1 vs1]. apply refuse_inv, Ok_inj in E. injection E as <- <-.
          unfold wrapped. destruct (fa_xs a); [|apply within_any; lia]. destruct (fa_pad a); [apply within_any; lia|]. destruct tg; [apply within_any; lia|]. rewrite size_cont. eapply cont_gives; [apply all_give|exact Ey].
      + destruct (fa_cond a); [|apply Ok_inj in Ec; discriminate Ec]. apply within_either_r, (IH _ _ E).
  Qed.

  Lemma top_gives d v b v' : se_top w p rf inp m erec d v = Ok (b, v') -> within (decl_size p rf bf br d) (len b).
  Proof.
    unfold se_top, decl_size. intros E. destruct (fa_xs (d_attr d)) as [|x xs] eqn:Hx; [|apply within_any; lia]. cbn [se_xs] in E.
    assert (TUP : forall t, match v with VTup x => let! (b, x') := se_type w p rf inp m erec [] t x in Ok (b, VTup x') | _ => Panic end = Ok (b, v') -> within (size_of t) (len b)).
    { intros t E0. destruct v; try discriminate E0. bi E0 y Ey. destruct y as [b1 v1]. apply Ok_inj in E0. injection E0 as <- <-. apply (type_gives _ _ _ _ _ Ey). }
    destruct (d_ty d) as [e| | | |de|db|f|n args|el lc|lo tg items]; try (apply TUP; exact E).
    - apply (type_gives (TEnum de) _ _ _ _ E). - apply (type_gives (TBits db) _ _ _ _ E). - apply within_any; lia.
    - destruct tg.
      + revert b v' E TUP. intros b v' E _. revert b v' E. apply limit_gives. apply variants_give.
      + bi E y Ey. destruct y as [b1 vs1]. apply Ok_inj in E. injection E as <- <-. rewrite size_cont. clear TUP. revert b1 vs1 Ey. apply limit_gives. intros b1 vs1 E1. unfold se_struct in E1. bi E1 en Een. bi E1 en1 Een1. eapply cont_gives; [apply all_give|exact E1].
  Qed.
End Enc.

Lemma top_foreign p n d : p n = Some d -> foreign_of p n = None -> forall f, d_ty d <> TForeign f.
Proof. unfold foreign_of. intros E H f X. rewrite E in H. destruct d as [? t ?]. cbn in X. subst t. discriminate H. Qed.

Theorem sdecode_within w p rf bf : world_suffixing w -> world_sizes w bf -> forall j k n vs, takes_within (bounds p rf bf j n) (sdecode w p rf k n vs).
Proof.
  intros Hw Hb. assert (ANY : forall k n vs, takes_within anything (sdecode w p rf k n vs)).
  { induction k as [|k IH]; intros n vs l x rest E; [discriminate E|]. cbn [sdecode] in E. bi E d Ed. bi E inp Ei.
    refine (takes_anything _ _ (top_takes w p rf bf (fun _ => anything) Hw Hb _ _ _ d) _ _ _ E). intros n0 vs0 _. apply IH. }
  induction j as [|j IH]; intros k n vs; [apply ANY|]. cbn [bounds]. destruct k as [|k]; [intros l x rest E; discriminate E|]. intros l x rest E. cbn [sdecode] in E.
  destruct (p n) as [d|]; [|discriminate E]. cbn [of_some bind] in E. bi E inp Ei. refine (top_takes w p rf bf _ Hw Hb _ _ _ d _ _ _ E). intros n0 vs0 _. apply IH.
Qed.
Theorem sencode_within w p rf bf m : world_sizes w bf -> forall j k n vs v b v', sencode w p rf m k n vs v = Ok (b, v') -> within (bounds p rf bf j n) (len b).
Proof.
  intros Hb. induction j as [|j IH]; intros k n vs v b v' E; [apply within_any; lia|]. cbn [bounds]. destruct k as [|k]; [discriminate E|]. cbn [sencode] in E.
  destruct (p n) as [d|]; [|discriminate E]. cbn [of_some bind] in E. bi E inp Ei. refine (top_gives w p rf bf _ Hb _ _ _ _ d _ _ _ E). intros n0 vs0 v0 b0 v0' _. apply IH.
Qed.
