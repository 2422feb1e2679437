(** * Variance inflation factors: 1 / (1 - R^2) of the regression (with intercept) of a variable on all others.

    Nothing here refers to the model of the code. *)
From Coq Require Import Arith QArith Qcanon.
From Verif Require Import Prelude SpecPop.
Open Scope Qc_scope.

(** The combination of the other variables with weights c, in row s; [X s j] is the value of variable j. *)
Definition of_others (p i : nat) (c : nat -> Qc) (X : nat -> nat -> Qc) (s : nat) : Qc := sumn p (fun j => if (j =? i)%nat then 0 else c j * X s j).
Definition error_of (p i : nat) (b0 : Qc) (b : nat -> Qc) (X : nat -> nat -> Qc) (s : nat) : Qc := X s i - (b0 + of_others p i b X s).
(** The normal equations of least squares with intercept b0. *)
Definition least_squares (N p i : nat) (X : nat -> nat -> Qc) (b0 : Qc) (b : nat -> Qc) : Prop :=
  sumn N (error_of p i b0 b X) = 0 /\ forall j, (j < p)%nat -> j <> i -> sumn N (fun s => error_of p i b0 b X s * X s j) = 0.
(** v is the variance of variable i over the variance of the errors, 1 / (1 - R^2). *)
Definition inflation (N p i : nat) (X : nat -> nat -> Qc) (v : Qc) : Prop :=
  exists b0 b, least_squares N p i X b0 b /\ sumn N (fun s => error_of p i b0 b X s * error_of p i b0 b X s) <> 0 /\
    v = qn N * var N (fun s => X s i) / sumn N (fun s => error_of p i b0 b X s * error_of p i b0 b X s).
