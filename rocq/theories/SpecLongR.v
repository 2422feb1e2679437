(** * Longitudinal data in other units: every variable may be measured in its own unit and from its own origin at every time point *)
From Coq Require Import Reals Arith List.
From Verif Require Import LibR SpecDirectR.
Import ListNotations.
Open Scope R_scope.

(** [X t j s]: variable j of subject s at time point t. *)
Definition rpanel := nat -> nat -> nat -> R.
Definition panel_in_units (a b : nat -> nat -> R) (X : rpanel) : rpanel := fun t j => in_units (a t j) (b t j) (X t j).
(** The p variables at the times t - L, ..., t and a constant are linearly independent on the n subjects: column c is
    variable c mod p at time t - L + c / p. *)
Definition window (p L : nat) (X : rpanel) (t : nat) : nat -> nat -> R := fun c => X (t - L + c / p)%nat (c mod p)%nat.
Definition window_independent (n p L : nat) (X : rpanel) (t : nat) : Prop :=
  independent_columns n (map (window p L X t) (seq 0 (p * S L))).
