(** * Longitudinal data generated by a linear model at every time point: vocabulary for statements about correctness.

    Nothing here refers to the model of the code. *)
From Coq Require Import List Arith QArith Qcanon.
From Verif Require Import Prelude Spec SpecPop.
Import ListNotations.

(** [X t s i]: variable [i] of subject [s] at time [t]; [N] subjects, [n] variables, lags 1..[L].
    At time [t]: x_t = B_t,0 x_t + B_t,1 x_(t-1) + ... + B_t,L x_(t-L) + e_t.  The instantaneous graph is acyclic; over
    the subjects the errors have positive variance and are uncorrelated with each other and with the past values,
    and no combination of past values is constant (apart from the trivial one). *)
Record long_model (N n L t : nat) (B : nat -> mat Qc) (e : nat -> sample) (X : nat -> nat -> nat -> Qc) : Prop := {
  lo_acyclic : acyclic (edge_of n (B 0));
  lo_equation : forall s i, i < n -> s < N ->
    (X t s i = sumn n (fun j => B 0%nat i j * X t s j) +
       sumn L (fun k => sumn n (fun j => B (k + 1)%nat i j * X (t - (k + 1))%nat s j)) + e i s)%Qc;
  lo_variance : forall i, i < n -> (0 < var N (e i))%Qc;
  lo_uncorrelated : forall i j, i < n -> j < n -> i <> j -> cov N (e i) (e j) = 0%Qc;
  lo_past : forall i k j, i < n -> k < L -> j < n -> cov N (e i) (fun s => X (t - (k + 1))%nat s j) = 0%Qc;
  lo_independent : forall c c0,
    (forall s, s < N -> sumn L (fun k => sumn n (fun j => c k j * X (t - (k + 1))%nat s j))%Qc = c0) ->
    forall k j, k < L -> j < n -> c k j = 0%Qc }.
