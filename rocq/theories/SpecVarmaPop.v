(** * Series generated by a structural vector autoregression with moving average: vocabulary for statements about correctness.

    Nothing here refers to the model of the code. *)
From Coq Require Import List Arith QArith Qcanon.
From Verif Require Import Prelude Spec SpecPop.
Import ListNotations.

(** M_1 Y_(t-1) + M_2 Y_(t-2) + ..., row i. *)
Definition lag_terms (n : nat) (Ms : list (mat Qc)) (Y : nat -> nat -> Qc) (t i : nat) : Qc :=
  sumn (length Ms) (fun k => sumn n (fun j => nth k Ms (fun _ _ => 0) i j * Y (t - (k + 1))%nat j))%Qc.
(** X_t = Psi_0 X_t + Psi_1 X_(t-1) + ... + Omega_1 e_(t-1) + ... + e_t, with an acyclic Psi_0. *)
Record structural_varma (n : nat) (Psi0 : mat Qc) (Psi Omega : list (mat Qc)) (e X : nat -> nat -> Qc) (N : nat) : Prop := {
  sv_acyclic : acyclic (edge_of n Psi0);
  sv_equation : forall t i, Nat.max (length Psi) (length Omega) <= t -> t < N -> i < n ->
    X t i = (sumn n (fun j => Psi0 i j * X t j) + lag_terms n Psi X t i + lag_terms n Omega e t i + e t i)%Qc }.
(** The coefficients of the same series without instantaneous effects: Phi_k = (I - Psi_0)^-1 Psi_k and
    Theta_k = (I - Psi_0)^-1 Omega_k (I - Psi_0). *)
Record reduced_form (n : nat) (Psi0 : mat Qc) (Psi Omega Phi Theta : list (mat Qc)) : Prop := {
  rf_phis : length Phi = length Psi;
  rf_thetas : length Theta = length Omega;
  rf_phi : forall k, k < length Psi -> meq n (mmul n (msub midn Psi0) (nth k Phi (fun _ _ => 0%Qc))) (nth k Psi (fun _ _ => 0%Qc));
  rf_theta : forall k, k < length Omega ->
    meq n (mmul n (msub midn Psi0) (nth k Theta (fun _ _ => 0%Qc))) (mmul n (nth k Omega (fun _ _ => 0%Qc)) (msub midn Psi0)) }.
(** Its innovations: u_t = Psi_0 u_t + e_t. *)
Definition innovations (n : nat) (Psi0 : mat Qc) (e u : nat -> nat -> Qc) (N : nat) : Prop :=
  forall t i, t < N -> i < n -> u t i = (sumn n (fun j => Psi0 i j * u t j) + e t i)%Qc.
(** The errors at the times d, ..., N-1 have positive variance and are uncorrelated. *)
Definition uncorrelated_errors (d N n : nat) (e : nat -> nat -> Qc) : Prop :=
  (forall i, i < n -> (0 < var (N - d) (fun r => e (r + d)%nat i))%Qc) /\
  forall i j, i < n -> j < n -> i <> j -> cov (N - d) (fun r => e (r + d)%nat i) (fun r => e (r + d)%nat j) = 0%Qc.
