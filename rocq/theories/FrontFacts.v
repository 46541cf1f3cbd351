(** Facts about the tables and types of Front.v. *)
From Verif Require Import Base Scalar ConstInt ConstIntFacts Tokens Ast Parse Front Program.
From Coq Require Import Lia.
Open Scope list_scope.

Lemma name_eqb_eq a : forall b, name_eqb a b = true <-> a = b.
Proof.
  induction a as [|x a IH]; intros [|y b]; cbn; split; intros H; try congruence; try discriminate.
  - apply andb_true_iff in H as [H1 H2]. apply Z.eqb_eq in H1. apply IH in H2. congruence.
  - injection H as -> ->. apply andb_true_iff. split; [apply Z.eqb_refl|apply IH; reflexivity].
Qed.
Lemma name_eqb_refl a : name_eqb a a = true. Proof. apply name_eqb_eq. reflexivity. Qed.
Lemma name_eqb_neq a b : name_eqb a b = false <-> a <> b.
Proof. rewrite <- name_eqb_eq. destruct (name_eqb a b); split; congruence. Qed.
Lemma name_eqb_sym a b : name_eqb a b = name_eqb b a.
Proof. destruct (name_eqb b a) eqn:E; [apply name_eqb_eq in E; subst; apply name_eqb_refl|]. apply name_eqb_neq in E. apply name_eqb_neq. congruence. Qed.
Lemma scalar_eqb_refl s : scalar_eqb s s = true. Proof. destruct s; reflexivity. Qed.
Lemma scalar_eqb_eq s t : scalar_eqb s t = true -> s = t. Proof. destruct s, t; cbn; congruence. Qed.
Lemma escalar_eqb_refl s : escalar_eqb s s = true. Proof. destruct s as [s e]. unfold escalar_eqb; cbn. rewrite scalar_eqb_refl. destruct e; reflexivity. Qed.
Lemma escalar_eqb_eq s t : escalar_eqb s t = true -> s = t.
Proof. destruct s as [s e], t as [s' e']. unfold escalar_eqb; cbn. intros H. apply andb_true_iff in H as [H1 H2]. apply scalar_eqb_eq in H1 as ->. destruct e, e'; cbn in H2; congruence. Qed.

Section Maps.
  Context {A : Type}.
  Implicit Types m : list (name * A).
  Lemma mget_put_same k v m : mget k (mput k v m) = Some v.
  Proof. induction m as [|[k' v'] m IH]; cbn; [rewrite name_eqb_refl; reflexivity|]. destruct (name_eqb k k') eqn:E; cbn; rewrite E; [reflexivity|exact IH]. Qed.
  Lemma mget_put_other k k' v m : k <> k' -> mget k (mput k' v m) = mget k m.
  Proof.
    intros N. induction m as [|[k'' v'] m IH]; cbn.
    - assert (E : name_eqb k k' = false) by (apply name_eqb_neq; exact N). rewrite E. reflexivity.
    - destruct (name_eqb k' k'') eqn:E; cbn.
      + apply name_eqb_eq in E as ->. assert (E : name_eqb k k'' = false) by (apply name_eqb_neq; exact N). rewrite E. reflexivity.
      + rewrite IH. reflexivity.
  Qed.
  Lemma mget_none k m : mget k m = None <-> ~ In k (map fst m).
  Proof.
    induction m as [|[k' v] m IH]; cbn; [tauto|]. destruct (name_eqb k k') eqn:E.
    - apply name_eqb_eq in E as ->. split; [discriminate|tauto].
    - apply name_eqb_neq in E. rewrite IH. intuition congruence.
  Qed.
  Lemma mget_in k v m : mget k m = Some v -> In (k, v) m.
  Proof. induction m as [|[k' v'] m IH]; cbn; [discriminate|]. destruct (name_eqb k k') eqn:E; [|intros H; right; auto]. apply name_eqb_eq in E as ->. intros [= ->]. left. reflexivity. Qed.
  Lemma in_mget k v m : NoDup (map fst m) -> In (k, v) m -> mget k m = Some v.
  Proof.
    induction m as [|[k' v'] m IH]; cbn; [tauto|]. intros ND [E|I]; inversion ND; subst.
    - injection E as -> ->. rewrite name_eqb_refl. reflexivity.
    - destruct (name_eqb k k') eqn:E; [|auto]. apply name_eqb_eq in E as ->. exfalso. apply H1. apply in_map_iff. exists (k', v). auto.
  Qed.
  Lemma mput_new k v m : mget k m = None -> mput k v m = m ++ [(k, v)].
  Proof. induction m as [|[k' v'] m IH]; cbn; [reflexivity|]. destruct (name_eqb k k') eqn:E; [discriminate|]. intros H. rewrite (IH H). reflexivity. Qed.
  Lemma mput_keys k v m : map fst (mput k v m) = if existsb (name_eqb k) (map fst m) then map fst m else map fst m ++ [k].
  Proof.
    induction m as [|[k' v'] m IH]; cbn; [reflexivity|]. destruct (name_eqb k k') eqn:E; cbn; [reflexivity|]. rewrite IH. destruct (existsb _ _); reflexivity.
  Qed.
  Lemma existsb_name k (l : list name) : existsb (name_eqb k) l = true <-> In k l.
  Proof. rewrite existsb_exists. split; [intros (x & I & E); apply name_eqb_eq in E as ->; exact I|intros I; exists k; split; [exact I|apply name_eqb_refl]]. Qed.
  Lemma mput_nodup k v m : NoDup (map fst m) -> NoDup (map fst (mput k v m)).
  Proof.
    intros N. rewrite mput_keys. destruct (existsb (name_eqb k) (map fst m)) eqn:E; [exact N|].
    assert (I : ~ In k (map fst m)) by (intros I; apply existsb_name in I; congruence).
    clear E. revert N I. generalize (map fst m). induction l as [|x l IH]; intros N I; [constructor; [tauto|constructor]|].
    inversion N; subst. cbn. constructor; [|apply IH; [assumption|intros J; apply I; right; exact J]].
    rewrite in_app_iff. intros [J|[J|[]]]; [contradiction|]. subst. apply I. left. reflexivity.
  Qed.
End Maps.

Lemma upd_same {A} (l : list A) i f x : nth_error l i = Some x -> nth_error (upd l i f) i = Some (f x).
Proof. revert i. induction l as [|y l IH]; intros [|i]; cbn; try discriminate; [intros [= ->]; reflexivity|apply IH]. Qed.
Lemma upd_other {A} (l : list A) i j f : i <> j -> nth_error (upd l i f) j = nth_error l j.
Proof. revert i j. induction l as [|y l IH]; intros [|i] [|j] N; cbn; try reflexivity; [congruence|]. apply IH. congruence. Qed.
Lemma upd_length {A} (l : list A) i f : List.length (upd l i f) = List.length l.
Proof. revert i. induction l as [|y l IH]; intros [|i]; cbn; try reflexivity. rewrite IH. reflexivity. Qed.

(** Break a monadic computation that succeeded. *)
Ltac run H := cbv zeta in H; repeat (first
  [ match type of H with
    | Ok _ = Ok _ => apply Ok_inj in H; try subst
    | Err _ = Ok _ => discriminate H
    | Panic = Ok _ => discriminate H
    | Hang = Ok _ => discriminate H
    | bind ?r _ = Ok _ => let E := fresh "E" in destruct r eqn:E; cbn [bind] in H
    | (let (_, _) := ?r in _) = Ok _ => destruct r
    | (if ?b then _ else _) = Ok _ => let E := fresh "E" in destruct b eqn:E
    | match ?x with _ => _ end = Ok _ => let E := fresh "E" in destruct x eqn:E
    end ]).
