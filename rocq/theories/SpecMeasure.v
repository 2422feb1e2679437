(** * The dependence measures of DirectLiNGAM as in the papers.

    Nothing here refers to the model of the code. *)
From Coq Require Import Reals Arith.
From Verif Require Import LibR.
Open Scope R_scope.

Definition average (n : nat) (x : nat -> R) : R := rsum n x / INR n.
(** The column in standard units. *)
Definition standardised (n : nat) (x : nat -> R) : nat -> R :=
  fun s => (x s - average n x) / sqrt (average n (fun t => (x t - average n x) ^ 2)).
Definition correlation (n : nat) (x y : nat -> R) : R := average n (fun s => standardised n x s * standardised n y s).
(** What is left of [x] after regression on [y], both in standard units. *)
Definition remainder (n : nat) (x y : nat -> R) : nat -> R := fun s => standardised n x s - correlation n x y * standardised n y s.
(** Hyvarinen's approximation of the entropy of a variable with mean 0 and variance 1. *)
Definition approx_entropy (n : nat) (u : nat -> R) : R :=
  (1 + ln (2 * PI)) / 2
  - 79.047 * (average n (fun s => ln (cosh (u s))) - 0.37457) ^ 2
  - 7.4129 * (average n (fun s => u s * exp (- (u s ^ 2) / 2))) ^ 2.
(** The Gaussian kernel. *)
Definition gaussian (sigma a b : R) : R := exp (- ((a - b) ^ 2 / (2 * sigma ^ 2))).
(** The regularised kernel mutual information (Bach and Jordan); [logdet m A]: logarithm of the determinant. *)
Definition kernel_mi (logdet : nat -> rmat -> R) (n : nat) (kappa sigma : R) (x y : nat -> R) : R :=
  let Kx := fun s t => gaussian sigma (x s) (x t) in
  let Ky := fun s t => gaussian sigma (y s) (y t) in
  let reg := fun (K : rmat) s t => K s t + (if (s =? t)%nat then INR n * kappa / 2 else 0) in
  let joint := fun s t =>
    if (s <? n)%nat
    then if (t <? n)%nat then rmul n (reg Kx) (reg Kx) s t else rmul n Kx Ky s (t - n)%nat
    else if (t <? n)%nat then rmul n Ky Kx (s - n)%nat t else rmul n (reg Ky) (reg Ky) (s - n)%nat (t - n)%nat in
  let separate := fun s t =>
    if (s <? n)%nat
    then if (t <? n)%nat then rmul n (reg Kx) (reg Kx) s t else 0
    else if (t <? n)%nat then 0 else rmul n (reg Ky) (reg Ky) (s - n)%nat (t - n)%nat in
  - (logdet (n + n)%nat joint - logdet (n + n)%nat separate) / 2.
