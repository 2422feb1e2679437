(** * Textbook formulas of the gamma approximation of HSIC (Gretton et al. 2007). *)
From Coq Require Import List Arith Bool QArith Qcanon.
From Verif Require Import Prelude Spec SpecBootstrap.
Import ListNotations.
Open Scope nat_scope.

(** Squared Euclidean distance of two rows. *)
Definition dist2 (m : nat) (X : mat Qc) (i j : nat) : Qc := sumn m (fun k => (X i k - X j k) * (X i k - X j k))%Qc.
(** Mean over the ordered pairs of different samples. *)
Definition pair_mean (n : nat) (f : nat -> nat -> Qc) : Qc :=
  (sumn n (fun i => sumn n (fun j => if i =? j then 0 else f i j)) / (qn n * (qn n - 1)))%Qc.
(** Centring matrix. *)
Definition cmat (n : nat) : mat Qc := fun i j => ((if i =? j then 1 else 0) - 1 / qn n)%Qc.
Definition centred (n : nat) (K : mat Qc) : mat Qc := mmul n (mmul n (cmat n) K) (cmat n).
(** Statistic, mean and variance under independence. *)
Definition hsic_value (n : nat) (K L : mat Qc) : Qc := (trace n (mmul n K (centred n L)) / qn n)%Qc.
Definition null_mean (n : nat) (K L : mat Qc) : Qc :=
  ((1 + pair_mean n K * pair_mean n L - pair_mean n K - pair_mean n L) / qn n)%Qc.
Definition null_var (n : nat) (K L : mat Qc) : Qc :=
  (qz 2 * (qn n - qz 4) * (qn n - qz 5) / (qn n * (qn n - 1) * (qn n - qz 2) * (qn n - qz 3)) *
   pair_mean n (fun i j => (centred n K i j * centred n L i j) * (centred n K i j * centred n L i j)))%Qc.
(** [v] is the median of the positive distances between two of the first [N] rows. *)
Definition median_distance (N m : nat) (X : mat Qc) (v : Qc) : Prop :=
  exists idx, NoDup idx /\ (forall i j, In (i, j) idx <-> i < j < N /\ dist2 m X i j <> 0%Qc) /\
    median_of (map (fun p => dist2 m X (fst p) (snd p)) idx) v.
