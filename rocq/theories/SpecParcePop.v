(** * Ideal answers of the dependence measures used by BottomUpParceLiNGAM, without reference to the model of the code *)
From Coq Require Import List Arith QArith Qcanon Relations.
From Verif Require Import Prelude Spec SpecPop SpecRCDPop.
Import ListNotations.
Open Scope nat_scope.

(** Two combinations of the errors are independent: they share no error. *)
Definition share_no_error (N m : nat) (e : nat -> sample) (y z : sample) : Prop :=
  forall k, k < m -> cov N y (e k) = 0%Qc \/ cov N z (e k) = 0%Qc.
(** The F-correlation is below the threshold exactly for independent combinations. *)
Definition ideal_fcorrelation (N m : nat) (e : nat -> sample) (f : sample -> sample -> Qc) (threshold : Qc) : Prop :=
  (0 < threshold)%Qc /\
  forall y z, combination N m e y -> combination N m e z -> ((f y z < threshold)%Qc <-> share_no_error N m e y z).
(** HSIC with Fisher's method: [st] statistic, [pv] p-value, [m2log p] = -2 log p, [sf s d] the tail of the
    chi-square distribution with [d] degrees of freedom.  Independent pairs contribute at most [lo] to Fisher's sum and
    dependent ones at least [hi]; any number of independent pairs is accepted and a sum of [hi] is rejected. *)
Definition ideal_hsic (N m n : nat) (e : nat -> sample) (st pv : sample -> sample -> Qc) (m2log : Qc -> Qc) (sf : Qc -> nat -> num)
    (alpha lo hi cut : Qc) : Prop :=
  (forall y z, pv y z <> 0%Qc /\ (0 <= m2log (pv y z))%Qc) /\
  (forall y z, combination N m e y -> combination N m e z -> share_no_error N m e y z ->
     (m2log (pv y z) <= lo)%Qc /\ (alpha <= pv y z)%Qc /\ (st y z < cut)%Qc) /\
  (forall y z, combination N m e y -> combination N m e z -> ~ share_no_error N m e y z ->
     (hi <= m2log (pv y z))%Qc /\ (pv y z < alpha)%Qc /\ (cut <= st y z)%Qc) /\
  (0 <= lo)%Qc /\ (qn n * lo < hi)%Qc /\
  (forall k s, k < n -> (0 <= s)%Qc -> (s <= qn k * lo)%Qc -> exists p, sf s (2 * k) = Some p /\ (alpha <= p)%Qc) /\
  (forall k s, k < n -> (hi <= s)%Qc -> exists p, sf s (2 * k) = Some p /\ (p < alpha)%Qc).
