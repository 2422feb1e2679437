(** * The same data in other units and with the rows in another order.

    Nothing here refers to the model of the code. *)
From Coq Require Import List Arith QArith Qcanon Permutation.
From Verif Require Import Prelude Spec SpecPop.
Import ListNotations.

(** A rearrangement of the [N] rows. *)
Definition rearranges (N : nat) (s : nat -> nat) : Prop := Permutation (map s (seq 0 N)) (seq 0 N).
(** Column [y] is column [x] in the unit 1/[a] with origin [b], the rows rearranged by [s]. *)
Definition in_unit (N : nat) (s : nat -> nat) (a b : Qc) (x y : sample) : Prop :=
  forall r, r < N -> (y r = a * x (s r) + b)%Qc.
(** The columns of [x'] are those of [x], column [i] with the factor [a i]; the factors are not zero. *)
Definition same_data (N : nat) (s : nat -> nat) (a : nat -> Qc) (x x' : nat -> sample) : Prop :=
  forall i, a i <> 0%Qc /\ exists b, in_unit N s (a i) b (x i) (x' i).
(** A test of one or two columns that does not depend on units, origins and the order of the rows. *)
Definition invariant1 {A} (N : nat) (t : sample -> A) : Prop :=
  forall s a b x y, rearranges N s -> a <> 0%Qc -> in_unit N s a b x y -> t y = t x.
Definition invariant2 {A} (N : nat) (t : sample -> sample -> A) : Prop :=
  forall s a b x y a' b' x' y', rearranges N s -> a <> 0%Qc -> a' <> 0%Qc -> in_unit N s a b x y -> in_unit N s a' b' x' y' -> t y y' = t x x'.
(** No column is an affine function of the others. *)
Definition independent_columns (N n : nat) (x : nat -> sample) : Prop :=
  forall c c0, (forall r, r < N -> sumn n (fun j => c j * x j r)%Qc = c0) -> forall j, j < n -> c j = 0%Qc.
