(** * The kernel mutual information of two Gram matrices, with and without centring.

    Nothing here refers to the model of the code. *)
From Coq Require Import Reals Arith.
From Verif Require Import LibR SpecMeasure.
Open Scope R_scope.

Definition regularised (c : R) (K : rmat) : rmat := fun s t => K s t + (if (s =? t)%nat then c else 0).
Definition joint (n : nat) (c : R) (K L : rmat) : rmat := fun s t =>
  if (s <? n)%nat
  then if (t <? n)%nat then rmul n (regularised c K) (regularised c K) s t else rmul n K L s (t - n)%nat
  else if (t <? n)%nat then rmul n L K (s - n)%nat t else rmul n (regularised c L) (regularised c L) (s - n)%nat (t - n)%nat.
Definition separate (n : nat) (c : R) (K L : rmat) : rmat := fun s t =>
  if (s <? n)%nat
  then if (t <? n)%nat then rmul n (regularised c K) (regularised c K) s t else 0
  else if (t <? n)%nat then 0 else rmul n (regularised c L) (regularised c L) (s - n)%nat (t - n)%nat.
Definition gram_mi (logdet : nat -> rmat -> R) (n : nat) (c : R) (K L : rmat) : R :=
  - (logdet (n + n)%nat (joint n c K L) - logdet (n + n)%nat (separate n c K L)) / 2.
(** Every row and column of the Gram matrix is given the mean 0 (Bach and Jordan, section 3.2). *)
Definition centred (n : nat) (K : rmat) : rmat := fun s t =>
  K s t - average n (fun u => K u t) - average n (fun u => K s u) + average n (fun u => average n (fun v => K u v)).
Definition gaussian_matrix (sigma : R) (x : nat -> R) : rmat := fun s t => gaussian sigma (x s) (x t).
(** [kernel_mi], but with centred Gram matrices. *)
Definition centred_kernel_mi (logdet : nat -> rmat -> R) (n : nat) (kappa sigma : R) (x y : nat -> R) : R :=
  gram_mi logdet n (INR n * kappa / 2) (centred n (gaussian_matrix sigma x)) (centred n (gaussian_matrix sigma y)).
(** The empirical distribution of the pairs is the product of its marginals. *)
Definition independent_sample (n : nat) (x y : nat -> R) : Prop :=
  forall f g : R -> R, average n (fun s => f (x s) * g (y s)) = average n (fun s => f (x s)) * average n (fun s => g (y s)).
