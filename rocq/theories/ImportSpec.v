(** The import graph of a program: specification for C29. *)
From Verif Require Import Base Tokens Ast Parse Front Program.
Open Scope list_scope.

Section Graph.
  Variable rs : resolver.
  (** The file called [x] contains the program [b]. *)
  Definition file (x : name) (b : aprogram) : Prop := exists text, r_load rs x = Ok (Some text) /\ parse text = Ok b.
  (** [a] has an import declaration for the file [x]. *)
  Definition imports (a : aprogram) (x : name) : Prop := exists items from, In (DImport items from) a /\ r_norm rs from = Ok x.
  (** [x] is imported by [a], directly or through other files. *)
  Inductive reach : aprogram -> name -> Prop :=
  | reach_direct a x : imports a x -> reach a x
  | reach_through a x b y : imports a x -> file x b -> reach b y -> reach a y.
  (** No file below [a] imports itself, directly or through others. *)
  Definition acyclic (a : aprogram) : Prop := forall x b, reach a x -> file x b -> ~ reach b x.
  (** There is no infinite chain of imports from [a]. *)
  Inductive grounded : aprogram -> Prop := Grounded a : (forall x b, imports a x -> file x b -> grounded b) -> grounded a.
End Graph.
