(** * Scores of predictions: notions used to state what OutOfSampleCausalTuning rewards.

    Nothing here refers to the model of the code. *)
From Coq Require Import Reals Arith List QArith Qcanon.
From Verif Require Import Prelude LibR SpecMeasure.
Import ListNotations.
Open Scope R_scope.

(** No edge at all. *)
Definition no_edges (g : mat num) : Prop := forall i j, g i j = Some 0%Qc.
Definition constant_on (n : nat) (x : nat -> R) : Prop := forall s t, (s < n)%nat -> (t < n)%nat -> x s = x t.
(** n = K m rows in K consecutive blocks of m: the mean of the block of row s. *)
Definition block_mean (m : nat) (x : nat -> R) (s : nat) : R := average m (fun r => x (s / m * m + r)%nat).
(** Sum of squared deviations from the mean. *)
Definition scatter (n : nat) (x : nat -> R) : R := rsum n (fun s => (x s - average n x) ^ 2).
