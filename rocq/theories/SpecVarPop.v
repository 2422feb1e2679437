(** * Series generated by a structural vector autoregression: vocabulary for statements about correctness.

    Nothing here refers to the model of the code. *)
From Coq Require Import List Arith QArith Qcanon.
From Verif Require Import Prelude Spec SpecPop.
Import ListNotations.

(** Value of variable [j], [k+1] steps before the time of row [r]; row [r] is time [r + p]. *)
Definition past (p : nat) (X : nat -> nat -> Qc) (k j : nat) : sample := fun r => X (r + p - (k + 1))%nat j.
Definition past_sum (n p : nat) (X : nat -> nat -> Qc) (c : nat -> nat -> Qc) : sample :=
  fun r => sumn p (fun k => sumn n (fun j => c k j * past p X k j r))%Qc.

(** X_t = B_0 X_t + B_1 X_(t-1) + ... + B_p X_(t-p) + e_t for p <= t < N: the instantaneous graph is acyclic;
    on the N-p rows the errors have mean zero, positive variance, are uncorrelated with each other and with the
    past values, and no combination of past values is constant (apart from the trivial one). *)
Record var_model (N n p : nat) (B : nat -> mat Qc) (e : nat -> sample) (X : nat -> nat -> Qc) : Prop := {
  vm_acyclic : acyclic (edge_of n (B 0));
  vm_equation : forall r i, i < n -> r < N - p ->
    (X (r + p)%nat i = sumn n (fun j => B 0%nat i j * X (r + p)%nat j) + past_sum n p X (fun k j => B (k + 1)%nat i j) r + e i r)%Qc;
  vm_mean : forall i, i < n -> mean (N - p) (e i) = 0%Qc;
  vm_variance : forall i, i < n -> (0 < var (N - p) (e i))%Qc;
  vm_uncorrelated : forall i j, i < n -> j < n -> i <> j -> cov (N - p) (e i) (e j) = 0%Qc;
  vm_past : forall i k j, i < n -> k < p -> j < n -> cov (N - p) (e i) (past p X k j) = 0%Qc;
  vm_independent : forall c c0, (forall r, r < N - p -> past_sum n p X c r = c0) -> forall k j, k < p -> j < n -> c k j = 0%Qc }.

(** Least squares without intercept of every variable on the past values: the normal equations. *)
Definition var_least_squares (N n p : nat) (X : nat -> nat -> Qc) (M : nat -> mat Qc) : Prop :=
  forall i k j, i < n -> k < p -> j < n ->
  sumn (N - p) (fun r => (X (r + p)%nat i - past_sum n p X (fun k j => M k i j) r) * past p X k j r)%Qc = 0%Qc.
