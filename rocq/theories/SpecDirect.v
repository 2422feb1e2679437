(** * Vocabulary for statements about prior knowledge. *)
From Coq Require Import List Arith QArith Qcanon ZArith.
From Verif Require Import Prelude Spec.
Import ListNotations.

(** Entries of a prior-knowledge matrix as the estimators see them:
    [pk i j = Some 1]: there is a directed path from j to i;
    [pk i j = Some 0]: there is none; [None] (NaN): unknown. *)

(** "[a] must precede [b]": a path a -> b is asserted, or a path b -> a is excluded
    while the converse path is not excluded. *)
Definition must_precede (pk : mat num) (a b : nat) : Prop :=
  pk b a = Some 1%Qc \/ (pk a b = Some 0%Qc /\ pk b a <> Some 0%Qc).

(** Some linear order of the variables obeys all ordering constraints. *)
Definition orderable (n : nat) (pk : mat num) : Prop :=
  exists l, is_order n l /\
    forall a b, a < n -> b < n -> must_precede pk a b -> precedes l a b.

(** The result order obeys all ordering constraints. *)
Definition respects (n : nat) (pk : mat num) (l : list nat) : Prop :=
  forall a b, a < n -> b < n -> must_precede pk a b -> precedes l a b.

(** A graph satisfies the prior knowledge: 1 = directed path, 0 = no directed path. *)
Definition satisfies_pk (n : nat) (pk : mat num) (E : graph) : Prop :=
  forall i j, i < n -> j < n -> i <> j ->
    (pk i j = Some 1%Qc -> Relation_Operators.clos_trans nat E j i) /\
    (pk i j = Some 0%Qc -> ~ Relation_Operators.clos_trans nat E j i).
