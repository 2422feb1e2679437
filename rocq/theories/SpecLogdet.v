(** * The logarithm of the product of the singular values of a positive definite matrix.

    Nothing here refers to the model of the code. *)
From Coq Require Import Reals Arith.
From Verif Require Import LibR SpecKernel.
Open Scope R_scope.

Definition positive_definite (m : nat) (A : rmat) : Prop := forall c, (exists i, (i < m)%nat /\ c i <> 0) -> 0 < qform m A c.
Definition lower_triangular (m : nat) (L : rmat) : Prop := forall i j, (i < m)%nat -> (j < m)%nat -> (i < j)%nat -> L i j = 0.
(** What is used of np.linalg.svd followed by the sum of the logarithms of the singular values: the product of the singular
    values of a matrix is the absolute value of its determinant, which for A = L L^T with L triangular is the product of the
    squares of the diagonal of L. *)
Definition log_singular_values (logsv : nat -> rmat -> R) : Prop :=
  forall m A L, lower_triangular m L -> (forall i, (i < m)%nat -> 0 < L i i) -> req m A (fun i j => rsum m (fun k => L i k * L j k)) ->
    logsv m A = rsum m (fun i => ln (L i i ^ 2)).
