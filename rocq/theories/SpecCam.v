(** * Additive regressions: what the regressions of CAM-UV are about.

    Nothing here refers to the model of the code. *)
From Coq Require Import Reals Arith List.
From Verif Require Import Prelude LibR SpecMeasure SpecResit.
Import ListNotations.
Open Scope R_scope.

(** [h] is the best additive prediction of y from the L columns of v: a sum of functions of single columns whose errors are orthogonal to
    every function of a single column (the normal equations of least squares). *)
Definition additive_mean (n L : nat) (v : nat -> list R) (y : nat -> R) (h : list R -> R) : Prop :=
  (exists hk : nat -> R -> R, forall w, length w = L -> h w = rsum L (fun k => hk k (nth k w 0))) /\
  forall k (g : R -> R), (k < L)%nat -> average n (fun s => (y s - h (v s)) * g (nth k (v s) 0)) = 0.
(** An additive regressor (GAM) without systematic error. *)
Definition exact_gam (reg : nat -> (nat -> list R) -> (nat -> R) -> list R -> R) : Prop :=
  forall n L v y, (0 < n)%nat -> (0 < L)%nat -> (forall s, (s < n)%nat -> length (v s) = L) -> additive_mean n L v y (reg n v y).
(** y is a function of x plus noise that is independent of x. *)
Definition additive_noise (n : nat) (x y : nat -> R) : Prop := exists f : R -> R, independent n (fun s => y s - f (x s)) x.
