(** Property C61: several messages on one stream. *)
From Verif Require Import ScalarFacts DecRef EncRef RtWf EnumBitsFacts RoundTrip Relax World Sample ValidSpec Valid Local CoderFacts PreludeFacts P_Coder P_Lengths P_Safe.
From Coq Require Import Lia.
Open Scope string_scope. Open Scope Z_scope. Open Scope list_scope.

(** What a user of the generated code writes: one encode call after another on the same writer, one decode call after another on the same reader. *)
Record msg := { m_type : string; m_args : list val; m_val : val }.
Definition head (m : msg) : string * list val := (m_type m, m_args m).
Fixpoint send (w : world) (p : program) (rf k : nat) (ms : list msg) : res ioerr (list Z) :=
  match ms with
  | [] => Ok []
  | m :: ms => let! b := encode w p rf k (m_type m) (m_args m) (m_val m) in let! bs := send w p rf k ms in Ok (b ++ bs)
  end.
(** The values received, and how it ended: what is left on the stream, or the first error. *)
Fixpoint receive (w : world) (p : program) (rf k : nat) (ts : list (string * list val)) (l : list Z) : list val * res ioerr (list Z) :=
  match ts with
  | [] => ([], Ok l)
  | t :: ts => match decode w p rf k (fst t) (snd t) l with
               | Ok (v, rest) => let r := receive w p rf k ts rest in (v :: fst r, snd r)
               | Err e => ([], Err e) | Panic => ([], Panic) | Hang => ([], Hang)
               end
  end.
(** Types that take everything to the end of the input ([mk_ty]) only come last. *)
Fixpoint ends_ok (mk : marks) (ms : list msg) (rest : list Z) : Prop :=
  match ms with [] => True | m :: ms => (mk_ty mk (m_type m) = true -> ms = [] /\ rest = []) /\ ends_ok mk ms rest end.
(** The checked encoding (Spec.v) accepts the value, as it does every valid one (ValidSpec.v). *)
Definition sendable (w : world) (p : program) (rf : nat) (g : good) (m : msg) : Prop :=
  foreign_of p (m_type m) = None /\ exists k b, sencode w p rf (Some g) k (m_type m) (m_args m) (m_val m) = Ok (b, m_val m).
Lemma valid_sendable w p rf g m : foreign_of p (m_type m) = None -> valid w p rf g (m_type m) (m_args m) (m_val m) -> sendable w p rf g m.
Proof. intros F (k & H). split; [exact F|]. exists k. exact (valid_sencode _ _ _ _ _ _ _ _ H). Qed.

Lemma f2_impl {A B} (P Q : A -> B -> Prop) l l' : (forall a b, P a b -> Q a b) -> Forall2 P l l' -> Forall2 Q l l'.
Proof. intros H. induction 1; constructor; auto. Qed.
Lemma messages w g mk p rf : world_laws w g mk -> world_suffixing w -> rt_program p mk -> compiles p rf -> forall ms, Forall (sendable w p rf g) ms ->
  exists k0 bs, Forall2 (fun m b => forall k, (k0 <= k)%nat -> encode w p rf k (m_type m) (m_args m) (m_val m) = Ok b /\
    forall rest, (mk_ty mk (m_type m) = true -> rest = []) -> decode w p rf k (m_type m) (m_args m) (b ++ rest) = Ok (m_val m, rest)) ms bs.
Proof.
  intros L S R C. induction 1 as [|m ms [F (k0 & b & V)] _ IH]; [exists O, []; constructor|]. destruct IH as (k1 & bs & IH). 
  assert (H : forall k rest, (k0 <= k)%nat -> (mk_ty mk (m_type m) = true -> rest = []) -> encode w p rf k (m_type m) (m_args m) (m_val m) = Ok b /\ decode w p rf k (m_type m) (m_args m) (b ++ rest) = Ok (m_val m, rest)).
  { intros k rest Hk Hr. eapply C31_roundtrip_partial; eauto. eapply sencode_more; eassumption. }
  exists (Nat.max k0 k1), (b :: bs). constructor.
  - intros k Hk. split; [|intros rest Hr]; [destruct (mk_ty mk (m_type m)) eqn:E; [apply (H k []); [lia|reflexivity]|apply (H k []); [lia|reflexivity]]|]. apply (H k rest); [lia|exact Hr].
  - eapply f2_impl; [|exact IH]. cbn. intros m' b' G k Hk. apply G. lia.
Qed.
(** C61. Valid values sent one after another (any types) are received one after another, and what follows them is still on the stream.  (Partial as C31 is: programs in the checked subset.) *)
Theorem C61_stream_partial : forall w g mk p rf, world_laws w g mk -> world_suffixing w -> rt_program p mk -> compiles p rf -> forall ms, Forall (sendable w p rf g) ms ->
  exists k0 bs, forall k rest, (k0 <= k)%nat -> ends_ok mk ms rest -> send w p rf k ms = Ok bs /\ receive w p rf k (map head ms) (bs ++ rest) = (map m_val ms, Ok rest).
Proof.
  intros w g mk p rf L S R C ms Hm. destruct (messages w g mk p rf L S R C ms Hm) as (k0 & bs & H). exists k0, (concat bs). intros k rest Hk. revert H. clear Hm. revert bs.
  induction ms as [|m ms IH]; intros bs H E; inversion H as [|? b ? bs' Hb Hbs]; subst; cbn [send receive map concat head fst snd]; [split; reflexivity|]. destruct E as [E1 E2].
  destruct (Hb k Hk) as [B1 B2]. destruct (IH bs' Hbs E2) as [I1 I2]. rewrite B1. cbn [bind]. rewrite I1. split; [reflexivity|]. rewrite <- app_assoc, B2.
  - rewrite I2. reflexivity.
  - intros M. destruct (E1 M) as [-> ->]. inversion Hbs. reflexivity.
Qed.
Print Assumptions C61_stream_partial.
(** Bytes on a stream have one reading: lists of valid messages of the same types with the same bytes are the same. *)
Theorem C61_unambiguous_partial : forall w g mk p rf, world_laws w g mk -> world_suffixing w -> rt_program p mk -> compiles p rf -> forall ms ms', Forall (sendable w p rf g) ms -> Forall (sendable w p rf g) ms' ->
  map head ms = map head ms' -> ends_ok mk ms [] -> (forall k0, exists k b, (k0 <= k)%nat /\ send w p rf k ms = Ok b /\ send w p rf k ms' = Ok b) -> ms = ms'.
Proof.
  intros w g mk p rf L S R C ms ms' H H' E F B. destruct (C61_stream_partial w g mk p rf L S R C ms H) as (k0 & bs & G). destruct (C61_stream_partial w g mk p rf L S R C ms' H') as (k1 & bs' & G').
  destruct (B (Nat.max k0 k1)) as (k & b & Hk & B1 & B2). destruct (G k [] ltac:(lia) F) as [G1 G2]. 
  assert (F' : ends_ok mk ms' []).
  { clear -E F. revert ms' E. induction ms as [|m ms IH]; intros [|m' ms'] E; try discriminate; [exact I|]. injection E as E1 E2 E3. destruct F as [F1 F2]. split; [|apply IH; assumption]. rewrite <- E1. intros M. destruct (F1 M) as [-> _]. destruct ms'; [auto|discriminate]. }
  destruct (G' k [] ltac:(lia) F') as [G1' G2']. rewrite B1 in G1. rewrite B2 in G1'. injection G1 as <-. injection G1' as <-. rewrite <- E, G2 in G2'. injection G2' as V.
  clear -E V. revert ms' E V. induction ms as [|[n a v] ms IH]; intros [|[n' a' v'] ms'] E V; try discriminate; [reflexivity|]. cbn in E, V. injection E as -> -> E. injection V as -> V. rewrite (IH ms' E V). reflexivity.
Qed.
Print Assumptions C61_unambiguous_partial.
(** A stream that is cut off, anywhere: exactly the messages that had arrived completely are received, then the unexpected end is reported. *)
Theorem C61_cut_partial : forall w g mk p rf lt lf lx, world_laws w g mk -> world_suffixing w -> rt_program p mk -> compiles p rf -> local_world lf lx w -> local_program p lt lf lx ->
  forall ms, Forall (sendable w p rf g) ms -> Forall (fun m => lt (m_type m) = true /\ mk_ty mk (m_type m) = false) ms ->
  exists k0 bs, (forall k, (k0 <= k)%nat -> Forall2 (fun m b => encode w p rf k (m_type m) (m_args m) (m_val m) = Ok b) ms bs) /\
    forall k cut tail, (k0 <= k)%nat -> concat bs = cut ++ tail -> tail <> [] ->
      exists i, (i < List.length ms)%nat /\ receive w p rf k (map head ms) cut = (firstn i (map m_val ms), Err EEof) /\
        (List.length (concat (firstn i bs)) <= List.length cut < List.length (concat (firstn (S i) bs)))%nat.
Proof.
  intros w g mk p rf lt lf lx L S R C L1 L2 ms Hm Hl. destruct (messages w g mk p rf L S R C ms Hm) as (k0 & bs & H). exists k0, bs. split.
  { intros k Hk. eapply f2_impl; [|exact H]. cbn. intros m b G. apply (G k Hk). }
  intros k cut tail Hk. revert bs H cut. clear Hm. induction Hl as [|m ms [Hl Hg] _ IH]; intros bs H cut E T; inversion H as [|? b ? bs' Hb Hbs]; subst; cbn [concat] in E.
  - symmetry in E. apply app_eq_nil in E as [_ E]. contradiction.
  - destruct (Hb k Hk) as [_ D]. cbn [map receive head fst snd]. destruct (Nat.leb_spec (List.length b) (List.length cut)) as [Le|Lt].
    + assert (X : exists c, cut = b ++ c /\ concat bs' = c ++ tail).
      { exists (skipn (List.length b) cut). assert (Y : firstn (List.length b) (b ++ concat bs') = firstn (List.length b) (cut ++ tail)) by (rewrite E; reflexivity).
        assert (Z : skipn (List.length b) (b ++ concat bs') = skipn (List.length b) (cut ++ tail)) by (rewrite E; reflexivity).
        rewrite firstn_app, firstn_all, Nat.sub_diag, app_nil_r, firstn_app in Y. replace (List.length b - List.length cut)%nat with O in Y by lia. rewrite app_nil_r in Y.
        rewrite skipn_app, skipn_all, Nat.sub_diag, skipn_app in Z. replace (List.length b - List.length cut)%nat with O in Z by lia. cbn in Z. split; [|exact Z]. rewrite Y at 1. symmetry. apply firstn_skipn. }
      destruct X as (c & -> & E'). destruct (IH bs' Hbs c E' T) as (i & I1 & I2 & I3). exists (Datatypes.S i). rewrite (D c) by congruence. rewrite I2. cbn [fst snd firstn concat List.length]. split; [lia|].
      split; [reflexivity|]. change (match bs' with [] => [] | a :: l => a :: firstn i l end) with (firstn (Datatypes.S i) bs'). rewrite !app_length. lia.
    + exists O. split; [cbn; lia|]. rewrite (truncated w p rf lt lf lx S C L1 L2 k (m_type m) (m_args m) b (m_val m) cut Hl).
      * split; [reflexivity|]. cbn [firstn concat List.length]. rewrite app_nil_r. lia.
      * rewrite <- (app_nil_r b). apply D. reflexivity.
      * assert (Y : firstn (List.length b) (b ++ concat bs') = firstn (List.length b) (cut ++ tail)) by (rewrite E; reflexivity).
        rewrite firstn_app, firstn_all, Nat.sub_diag, app_nil_r, firstn_app, (firstn_all2 cut) in Y by lia. exists (firstn (List.length b - List.length cut) tail). split; [|exact Y].
        intros N. rewrite N, app_nil_r in Y. rewrite Y in Lt. lia.
Qed.
Print Assumptions C61_cut_partial.

(** Over the prelude, with one decidable check of the program. *)
Theorem C61_prelude_stream_partial : forall l rf tys, prog_ok l rf (prelude_marks tys) = true -> forall ms, Forall (sendable prelude_world (prog l) rf prelude_good) ms ->
  exists k0 bs, forall k rest, (k0 <= k)%nat -> ends_ok (prelude_marks tys) ms rest ->
    send prelude_world (prog l) rf k ms = Ok bs /\ receive prelude_world (prog l) rf k (map head ms) (bs ++ rest) = (map m_val ms, Ok rest).
Proof. exact (fun l rf tys H => C61_stream_partial _ _ _ _ _ (prelude_world_laws tys) prelude_world_suffixing (proj1 (prog_ok_compiles _ _ _ H)) (proj2 (prog_ok_compiles _ _ _ H))). Qed.
Print Assumptions C61_prelude_stream_partial.

(** A valid item, and a stream with a packet between two items. *)
Definition item_msg (id : Z) (raw : list Z) : msg := {| m_type := "Item"; m_args := [VInt U8 (Z.of_nat (List.length raw))]; m_val := VStruct "Item" [("id", VInt I32 id); ("raw", u8s raw)] |}.
Example C61_nonvacuous : prog_ok sample_list 20 sample_marks = true /\
  valid prelude_world sample 20 prelude_good "Item" [VInt U8 2] (VStruct "Item" [("id", VInt I32 300); ("raw", u8s [9; 10])]) /\
  let ms := [item_msg 300 [9; 10]; {| m_type := "Packet"; m_args := []; m_val := packet |}; item_msg 1 []] in
  Forall (sendable prelude_world sample 20 prelude_good) ms /\ ends_ok sample_marks ms [5; 5; 5] /\
  exists bs, send prelude_world sample 20 5 ms = Ok bs /\ receive prelude_world sample 20 5 (map head ms) (bs ++ [5; 5; 5]) = (map m_val ms, Ok [5; 5; 5]) /\
  receive prelude_world sample 20 5 (map head ms) (firstn 20 bs) = ([m_val (item_msg 300 [9; 10])], Err EEof).
Proof.
  split; [exact sample_ok|]. split.
  { exists 1%nat. cbn [has_decl]. do 2 eexists. split; [vm_compute; reflexivity|]. split; [vm_compute; reflexivity|]. split; [constructor|]. cbn [d_ty].
    eexists. split; [reflexivity|]. split; [exact I|]. split; [vm_compute; reflexivity|]. split; [vm_compute; repeat constructor; cbn; intuition discriminate|].
    split; [reflexivity|]. split; [cbn; intuition discriminate|]. intros a t [H|[H|[]]]; injection H as <- <-; unfold has_field; cbn [fa_pad fa_cond fa_calc fa_name].
    - exists (VInt I32 300). split; [reflexivity|]. split; [|split; [constructor|exact I]]. cbn [has_ty]. exists []. split; [reflexivity|]. cbn [foreign_of]. eexists. split; [vm_compute; reflexivity|]. split; [repeat constructor; unfold byte_ok; lia|vm_compute; reflexivity].
    - exists (u8s [9; 10]). split; [reflexivity|]. split; [|split; [constructor|exact I]]. cbn [has_ty]. eexists U8, _. split; [reflexivity|]. split; [reflexivity|]. split; [reflexivity|]. split; [discriminate|]. split; [reflexivity|]. repeat constructor; cbn [has_ty]; eexists; split; reflexivity. }
  cbv zeta. split; [repeat (constructor; [split; [reflexivity|]; exists 5%nat; eexists; vm_compute; reflexivity|]); constructor|]. split; [cbn; intuition discriminate|].
  eexists. split; [vm_compute; reflexivity|]. split; vm_compute; reflexivity.
Qed.
Print Assumptions C61_nonvacuous.
