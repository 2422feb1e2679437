(** * Specification vocabulary for results of LongitudinalLiNGAM (independent of the model). *)
From Coq Require Import List Arith Bool ZArith QArith Qcanon.
From Verif Require Import Prelude Spec.
Import ListNotations.
Open Scope nat_scope.

(** Coefficient of variable [j] at time [t - tau] on variable [i] at time [t] in sample [b]. *)
Definition coef_of (ms : list (nat -> nat -> mat num)) (t tau i j b : nat) : num :=
  nth b ms (fun _ _ _ _ => None) t tau i j.
(** It is larger than the threshold in absolute value (a NaN is not); positive; negative. *)
Definition large (m : Qc) (x : num) : Prop := exists v, x = Some v /\ (m < qabs v)%Qc.
Definition large_pos (m : Qc) (x : num) : Prop := exists v, x = Some v /\ (m < qabs v)%Qc /\ (0 < v)%Qc.
Definition large_neg (m : Qc) (x : num) : Prop := exists v, x = Some v /\ (m < qabs v)%Qc /\ (v < 0)%Qc.

(** The graph over the time points from_t, ..., to_t: node p*k + a is variable a at time from_t + k. *)
Definition unrolled (p L : nat) (s : nat -> nat -> mat num) (from_t : nat) : mat Qc := fun v u =>
  if (u / p <=? v / p) && (v / p - u / p <=? L) then nan_to_num (s (from_t + v / p) (v / p - u / p) (v mod p) (u mod p)) else 0%Qc.
Definition unrolled_edge (p L : nat) (s : nat -> nat -> mat num) (from_t to_t : nat) (m : Qc) : graph := fun u v =>
  u < p * (to_t - from_t + 1) /\ v < p * (to_t - from_t + 1) /\ u / p <= v / p /\ v / p <= u / p + L /\
  large m (s (from_t + v / p) (v / p - u / p) (v mod p) (u mod p)).
