(** The types of accepted programs have the shape the code generators take (GenSpec.v). *)
From Verif Require Import Base Scalar ConstInt Tokens Ast Parse Front Program FrontFacts ElabSpec ElabFacts ElabTypes ElabProgram.
From Verif Require Import EnumBits Expr Asg Gen Decode Encode Spec EncWf ScopeSpec ScopeDec ConstSpec LowerSpec Lower ScopeFront GenSpec.
From Verif Require Import Front ElabSpec.
From Coq Require Import Lia.
Open Scope string_scope. Open Scope Z_scope. Open Scope list_scope.

Section Shape.
  Variables (n : nat) (chk : bool) (p : prog).
  Lemma inl_shape F I : forall m t t' x, minl n p F I t t' -> lower_type chk p m t' = Some x -> is_cont x = false /\ leaf_ok x = true.
  Proof.
    induction m as [|m IH]; intros t t' x M L; [discriminate L|]. inversion M; subst; cbn [lower_type] in L; try (injection L as <-; split; reflexivity).
    - inv_o L. inv_o L. injection L as <-. split; reflexivity.
    - inv_o L. inv_o L. injection L as <-. split; [reflexivity|]. cbn [leaf_ok]. eapply IH; eassumption.
  Qed.
  (** A list of lowered items: pads are arrays, other fields have a good type. *)
  Definition fitem (f : fattr * ty) : bool := if fa_pad (fst f) then pad_type (snd f) else shape (snd f).
  Lemma elab_shape I : forall m F top t t' x, elab n p F I top t t' -> lower_type chk p m t' = Some x ->
    match x with TCont _ true its => forallb (fun f => negb (fa_pad (fst f)) && shape (snd f)) its = true | _ => shape x = true end.
  Proof.
    induction m as [|m IH]; intros F top t t' x El L; [discriminate L|]. inversion El; subst.
    - destruct (inl_shape F I (S m) _ _ _ H L) as [A B]. destruct x; try exact B. discriminate.
    - cbn [lower_type] in L. inv_o L. injection L as <-. reflexivity.
    - cbn [lower_type] in L. inv_o L. injection L as <-. reflexivity.
    - rename H4 into Hit, H2 into Ht. cbn [lower_type] in L. inv_n L len2 E. inv_n L its2 E0. injection L as <-.
      assert (K : forallb fitem its2 = true /\ (Forall (fun i => is_pad i = false) items -> forallb (fun f => negb (fa_pad (fst f))) its2 = true)).
      { clear El E H H0 H1 H3 Ht. set (all := fields_of items its) in Hit. clearbody all. revert its2 E0. remember ([] : list (name * nat)) as before eqn:Eb. clear Eb. remember O as k eqn:Ek. clear Ek.
        induction Hit as [F I all before k|F I all before k y ty0 calc cnd xs l i fd l' Hf Hn Hp Htop Hpad Hty Hc Hx Hcalc Hit IHit|F I all before k e l i fd ln l' Hf Hpad Hty Hcalc Hc Hx Hps Hn Hm Hit IHit]; intros out E; cbn [traverse] in E.
        + injection E as <-. split; reflexivity.
        + inv_n E x1 Ex. inv_n E rest Er. injection E as <-. cbn [snd] in Ex. inv_n Ex fd' Ef. assert (fd' = fd) as -> by congruence. inv_n Ex at1 Ea. inv_n Ex t1 Et. injection Ex as <-.
          unfold lower_attr in Ea. inv_n Ea c1 Ek. inv_n Ea c2 Ec. inv_n Ea c3 Exs. injection Ea as <-. destruct (IHit IH _ Er) as [I1 I2]. cbn [forallb fitem fst snd fa_pad]. unfold fitem at 1. cbn [fst snd fa_pad]. rewrite Hpad, I1.
          pose proof (IH _ _ _ _ _ Hty Et) as G. split.
          * rewrite andb_true_r. destruct t1 as [| | | | | | | | |ln [] its1]; try exact G. exfalso.
            inversion Hty as [? ? ? Hm|? ? ? ? ? ?|? ? ? ? ? ?|? ? ? ? ? ? tg ? ? ? Ht2 ? ? Z1 Z2 Z3]; subst.
            -- destruct (inl_shape _ _ _ _ _ _ Hm Et) as [A _]. discriminate A.
            -- assert (tg = true) as -> by (rewrite <- Z3 in Et; destruct m as [|m]; [discriminate Et|]; cbn [lower_type] in Et; repeat (inv_o Et); injection Et as <- <- <-; reflexivity). destruct (Ht2 eq_refl) as [Z _]. congruence.
          * intros F'. inversion F'; subst. cbn [negb andb]. apply I2. assumption.
        + inv_n E x1 Ex. inv_n E rest Er. injection E as <-. cbn [snd] in Ex. inv_n Ex fd' Ef. assert (fd' = fd) as -> by congruence. inv_n Ex at1 Ea. inv_n Ex t1 Et. injection Ex as <-.
          unfold lower_attr in Ea. rewrite Hcalc, Hc, Hx in Ea. cbn in Ea. injection Ea as <-. destruct (IHit IH _ Er) as [I1 I2]. cbn [forallb]. unfold fitem at 1. cbn [fst snd fa_pad]. rewrite Hpad, I1. split.
          * rewrite andb_true_r. rewrite Hty in Et. destruct m as [|m]; [discriminate Et|]. cbn [lower_type] in Et. inv_n Et e1 El. inv_n Et l1 Ell. injection Et as <-. cbn [pad_type]. unfold lower_len in Ell. inv_n Ell e2 E2. injection Ell as <-. reflexivity.
          * intros F'. inversion F'; subst. discriminate. }
      destruct K as [K1 K2]. destruct tagged.
      + destruct (Ht eq_refl) as (_ & Np & _). specialize (K2 Np). clear - K1 K2. induction its2 as [|f l IHl]; [reflexivity|]. cbn [forallb] in *. apply andb_prop in K1 as [A B]. apply andb_prop in K2 as [C D]. rewrite (IHl B D), C. unfold fitem in A. apply negb_true_iff in C. rewrite C in A. rewrite A. reflexivity.
      + exact K1.
  Qed.
  Lemma type_shape x args f i fd m d : type_elab n p x args f -> mget x (p_types p) = Some i -> fget p i = Some fd -> lower_decl chk p m fd = Some d -> decl_shape d = true.
  Proof.
    destruct f as [t calc flags cnd xs]. intros (i' & fd' & Ei & Ef & _ & _ & Hp & _ & _ & El & _) Ei' Ef' L. rewrite Ei in Ei'. injection Ei' as ->. rewrite Ef in Ef'. injection Ef' as ->.
    unfold lower_decl in L. inv_n L at1 Ea. inv_n L t1 Et. inv_o L. injection L as <-. unfold lower_attr in Ea. inv_o Ea. inv_o Ea. inv_o Ea. injection Ea as <-. unfold decl_shape. cbn [d_attr d_ty fa_pad]. rewrite Hp. cbn [negb andb].
    pose proof (elab_shape _ _ _ _ _ _ _ El Et) as G. destruct t1 as [| | | | | | | | |ln [] its]; exact G.
  Qed.
End Shape.
