(** * Ideal answers of the statistical tests on data generated by a linear acyclic model.

    Nothing here refers to the model of the code. *)
From Coq Require Import List Arith QArith Qcanon Relations.
From Verif Require Import Prelude Spec SpecPop.
Import ListNotations.

(** [j] is a cause of [i], direct or not. *)
Definition ancestor (m : nat) (B : mat Qc) (j i : nat) : Prop := clos_trans nat (edge_of m B) j i.
(** [y] is a linear combination of the errors, up to a constant. *)
Definition combination (N m : nat) (e : nat -> sample) (y : sample) : Prop :=
  exists a c0, forall r, r < N -> (y r = sumn m (fun k => a k * e k r) + c0)%Qc.
(** The tests on linear combinations of the errors.  [ideal_independence] is the theorem of Darmois and Skitovich for
    independent non-Gaussian errors: two combinations are independent exactly when they share no error. *)
Definition ideal_correlation (N m : nat) (e : nat -> sample) (corr : sample -> sample -> bool) : Prop :=
  forall y z, combination N m e y -> combination N m e z -> (corr y z = true <-> cov N y z <> 0%Qc).
Definition ideal_independence (N m : nat) (e : nat -> sample) (ind : sample -> sample -> bool) : Prop :=
  forall y z, combination N m e y -> combination N m e z ->
  (ind y z = true <-> forall k, k < m -> cov N y (e k) = 0%Qc \/ cov N z (e k) = 0%Qc).
Definition ideal_normality (N m : nat) (e : nat -> sample) (nongauss : sample -> bool) : Prop :=
  forall y, combination N m e y -> var N y <> 0%Qc -> nongauss y = true.
(** The effects along several paths do not cancel: a cause contributes to its effects. *)
Definition no_cancelling (N m : nat) (B : mat Qc) (e x : nat -> sample) : Prop :=
  forall j i, ancestor m B j i -> cov N (x i) (e j) <> 0%Qc.
(** A regression that returns least-squares coefficients of [y] on the variables [ps] of [x]. *)
Definition solves_least_squares (N : nat) (ols : (nat -> sample) -> list nat -> sample -> nat -> Qc) : Prop :=
  forall x ps y, NoDup ps -> least_squares N x y ps (ols x ps y).
