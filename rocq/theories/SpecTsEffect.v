(** * Total effects in time series by regression: vocabulary *)
From Coq Require Import List Arith QArith Qcanon.
From Verif Require Import Prelude Spec SpecPop.
Import ListNotations.

(** The value of variable [c] [s] steps before the rows 0..N-1, where the series is continued cyclically (the row before the first is the last). *)
Definition lagged (N : nat) (X : nat -> nat -> Qc) (s c : nat) : sample := fun t => X ((t + (N - s mod N)) mod N) c.
(** A regression with intercept: [lr cols y k] is the coefficient of the k-th column; the residual is uncorrelated with every column. *)
Definition linear_regression (N : nat) (lr : list sample -> sample -> nat -> Qc) : Prop :=
  forall cols y q, In q cols -> cov N (fun r => y r - sumn (length cols) (fun k => lr cols y k * nth k cols (fun _ => 0) r))%Qc q = 0%Qc.
