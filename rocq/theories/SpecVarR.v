(** * What is used of statsmodels' VAR: a least squares fit without constant term *)
From Coq Require Import Reals Arith List.
From Verif Require Import Prelude LibR SpecDirectR.
Import ListNotations.
Open Scope R_scope.

(** A series: X t j is the value of variable j at time t = 0, ..., N-1; p variables. *)
Definition rseries := nat -> nat -> R.

(** The value of variable i at time t predicted from the k = length Ms values before it: sum of M_1 X_{t-1}, ..., M_k X_{t-k}. *)
Definition predicted (p : nat) (Ms : list rmat) (X : rseries) (t i : nat) : R :=
  rsum (length Ms) (fun tau => rsum p (fun l => nth tau Ms (fun _ _ => 0) i l * X (t - 1 - tau)%nat l)).
(** Sum of the squared errors of these predictions at the times k, ..., N-1. *)
Definition prediction_error (N p : nat) (X : rseries) (Ms : list rmat) (i : nat) : R :=
  rsum (N - length Ms) (fun s => (X (length Ms + s)%nat i - predicted p Ms X (length Ms + s) i) ^ 2).
Definition var_least_squares (N p : nat) (X : rseries) (k : nat) (Ms : list rmat) : Prop :=
  length Ms = k /\
  forall i, (i < p)%nat -> forall Ms', length Ms' = k -> prediction_error N p X Ms i <= prediction_error N p X Ms' i.

(** The variables, their k past values and the constant are linearly independent: column c = tau * p + l is variable l,
    tau steps earlier, row s is time k + s. *)
Definition stacked (p : nat) (X : rseries) (k : nat) : nat -> nat -> R := fun c s => X (k + s - c / p)%nat (c mod p)%nat.
Definition var_independent (N p : nat) (X : rseries) (k : nat) : Prop :=
  independent_columns (N - k) (map (stacked p X k) (seq 0 (p * S k))).

(** VAR(X).fit(maxlags=k, trend="n").coefs *)
Definition var_oracle (ols : nat -> nat -> rseries -> nat -> result (list rmat)) : Prop :=
  forall N p X k, var_independent N p X k -> exists Ms, ols N p X k = Ok Ms /\ var_least_squares N p X k Ms.

(** The series in other units, with the same origins. *)
Definition series_in_units (a : nat -> R) (X : rseries) : rseries := fun t j => a j * X t j.
(** In other units the logarithm of the determinant of the residual covariance is shifted by a constant that does not depend on
    the lag; so aic, bic and hqic are shifted, and fpe is multiplied.  None is NaN. *)
Definition criterion_oracle (crit : nat -> nat -> rseries -> nat -> option R) : Prop :=
  forall N p X a, (forall j, (j < p)%nat -> a j <> 0) ->
    exists c d, 0 < c /\ forall k, crit N p (series_in_units a X) k = option_map (fun v => c * v + d) (crit N p X k).
