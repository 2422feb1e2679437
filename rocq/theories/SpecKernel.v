(** * Positive semidefinite forms, and what it means for two samples to be independent as samples *)
From Coq Require Import Reals Arith Bool.
From Verif Require Import LibR.
Open Scope R_scope.

(** The quadratic form of an n x n matrix. *)
Definition qform (n : nat) (A : rmat) (c : nat -> R) : R := rsum n (fun i => rsum n (fun j => c i * c j * A i j)).
Definition psd (n : nat) (A : rmat) : Prop := forall c, 0 <= qform n A c.

(** Two rows of m columns are equal. *)
Definition same_row (m : nat) (u v : nat -> R) : Prop := forall k, (k < m)%nat -> u k = v k.
(** How many of [n] rows satisfy a decidable property. *)
Definition count_rows (n : nat) (p : nat -> bool) : R := rsum n (fun i => if p i then 1 else 0).
(** The empirical distribution of the pairs of rows is the product of its marginals: the number of samples with X-row
    like that of sample [a] and Y-row like that of sample [b], times n, is the product of the numbers of either kind. *)
Definition empirically_independent (n m1 m2 : nat) (X Y : rmat) : Prop :=
  forall (px py : nat -> bool) a b, (a < n)%nat -> (b < n)%nat ->
    (forall i, (i < n)%nat -> (px i = true <-> same_row m1 (X i) (X a))) ->
    (forall i, (i < n)%nat -> (py i = true <-> same_row m2 (Y i) (Y b))) ->
    INR n * count_rows n (fun i => px i && py i) = count_rows n px * count_rows n py.
