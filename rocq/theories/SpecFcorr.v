(** * Specifications for the F-correlation: sorting, eigenvalues, gram matrices, canonical correlation *)
From Coq Require Import Reals Arith.
From Verif Require Import Prelude LibR SpecKernel.
Open Scope R_scope.

Definition symmetric (n : nat) (M : rmat) : Prop := forall i j, (i < n)%nat -> (j < n)%nat -> M i j = M j i.
(** Positions below [n], each exactly once. *)
Definition perm_below (n : nat) (s : nat -> nat) : Prop :=
  (forall k, (k < n)%nat -> (s k < n)%nat) /\ (forall j k, (j < n)%nat -> (k < n)%nat -> s j = s k -> j = k).
(** numpy.argsort: the positions in an order that makes the values nondecreasing (ties in any order). *)
Definition argsort_spec (argsort : nat -> (nat -> R) -> nat -> nat) : Prop := forall n f,
  perm_below n (argsort n f) /\ forall j k, (j < k)%nat -> (k < n)%nat -> f (argsort n f j) <= f (argsort n f k).
(** scipy.linalg.eigh: the columns of A are orthonormal eigenvectors, D the eigenvalues. *)
Definition eigh_spec (eigh : nat -> rmat -> (nat -> R) * rmat) : Prop := forall r M, symmetric r M ->
  let D := fst (eigh r M) in let A := snd (eigh r M) in
  (forall k l, (k < r)%nat -> (l < r)%nat -> rsum r (fun i => A i k * A i l) = if (k =? l)%nat then 1 else 0) /\
  (forall i k, (i < r)%nat -> (k < r)%nat -> rsum r (fun j => M i j * A j k) = D k * A i k).
(** scipy.sparse.linalg.eigsh(M, 1, which="SM"): if it returns, an eigenvalue of smallest magnitude. *)
Definition eigen_of (n : nat) (M : rmat) (w : R) : Prop := exists v, (exists i, (i < n)%nat /\ v i <> 0) /\
  forall i, (i < n)%nat -> rsum n (fun j => M i j * v j) = w * v i.
Definition eigsh_spec (eigsh_SM : nat -> rmat -> result R) : Prop := forall n M w, symmetric n M -> eigsh_SM n M = Ok w ->
  eigen_of n M w /\ forall u, eigen_of n M u -> Rabs w <= Rabs u.

(** The gram matrix of the Gaussian kernel, its double centring, and approximation from below in the order of forms. *)
Definition gauss (sigma : R) (x : nat -> R) : rmat := fun i j => exp (- (x i - x j) ^ 2 / (2 * sigma ^ 2)).
Definition avg (n : nat) (f : nat -> R) : R := rsum n f / INR n.
Definition double_centre (n : nat) (K : rmat) : rmat := fun i j =>
  K i j - avg n (fun k => K k j) - avg n (fun k => K i k) + avg n (fun k => avg n (fun l => K k l)).
Definition norm2 (n : nat) (c : nat -> R) : R := rsum n (fun i => c i * c i).
Definition approximates (n : nat) (A K : rmat) (eps : R) : Prop :=
  forall c, qform n A c <= qform n K c <= qform n A c + eps * norm2 n c.

(** The first canonical correlation of two samples of features with gram matrices A and B, regularised by t (Bach and Jordan 2002):
    the largest (A a)^T (B b) over vectors with |(A + t I) a| = |(B + t I) b| = 1. *)
Definition apply (n : nat) (A : rmat) (a : nat -> R) : nat -> R := fun i => rsum n (fun j => A i j * a j).
Definition regularised (n : nat) (A : rmat) (t : R) (a : nat -> R) : nat -> R := fun i => apply n A a i + t * a i.
Definition canonical_correlation (n : nat) (t : R) (A B : rmat) (rho : R) : Prop :=
  let inner := fun a b => rsum n (fun i => apply n A a i * apply n B b i) in
  (forall a b, norm2 n (regularised n A t a) = 1 -> norm2 n (regularised n B t b) = 1 -> inner a b <= rho) /\
  (exists a b, norm2 n (regularised n A t a) = 1 /\ norm2 n (regularised n B t b) = 1 /\ inner a b = rho).
