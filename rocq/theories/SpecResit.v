(** * Independence in a sample, conditional means, additive noise models: what RESIT is about.

    Nothing here refers to the model of the code. *)
From Coq Require Import Reals Arith List QArith Qcanon.
From Verif Require Import Prelude LibR SpecMeasure.
Import ListNotations.
Open Scope R_scope.

(** The empirical distribution of the pairs is the product of its marginals. *)
Definition independent {A B : Type} (n : nat) (u : nat -> A) (v : nat -> B) : Prop :=
  forall (f : A -> R) (g : B -> R), average n (fun s => f (u s) * g (v s)) = average n (fun s => f (u s)) * average n (fun s => g (v s)).
(** The values of the variables listed in [L] in row [s]; [X j s] is the value of variable j. *)
Definition values (X : nat -> nat -> R) (L : list nat) (s : nat) : list R := map (fun j => X j s) L.
Definition all_but (i m : nat) : list nat := filter (fun j => negb (j =? i)%nat) (seq 0 m).
Definition mutually_independent (n m : nat) (U : nat -> nat -> R) : Prop :=
  forall i, (i < m)%nat -> independent n (U i) (values U (all_but i m)).
(** [h] is the conditional mean of y given v in the sample: the errors are orthogonal to every function of v. *)
Definition conditional_mean {B : Type} (n : nat) (v : nat -> B) (y : nat -> R) (h : B -> R) : Prop :=
  forall g : B -> R, average n (fun s => (y s - h (v s)) * g (v s)) = 0.
(** Every variable is a function of its causes plus noise; the noises are mutually independent. *)
Definition additive_noise_model (n p : nat) (causes : nat -> list nat) (f : nat -> list R -> R) (E X : nat -> nat -> R) : Prop :=
  mutually_independent n p E /\
  forall k s, (k < p)%nat -> (s < n)%nat -> X k s = f k (values X (causes k) s) + E k s.
(** A regressor with no systematic error: what it has learnt predicts the conditional mean. *)
Definition exact_regressor (reg : nat -> (nat -> list R) -> (nat -> R) -> list R -> R) : Prop :=
  forall n v y, (0 < n)%nat -> conditional_mean n v y (reg n v y).
(** An independence statistic that is zero for independent samples and positive for all others. *)
Definition exact_statistic (stat : nat -> (nat -> R) -> (nat -> list R) -> num) : Prop :=
  forall n u v, (0 < n)%nat -> exists q : Qc, stat n u v = Some q /\ (0 <= q)%Qc /\ (q = 0%Qc <-> independent n u v).
(** A p-value that exceeds [alpha] for independent samples and no others. *)
Definition exact_p_value (alpha : Qc) (pval : nat -> (nat -> R) -> (nat -> list R) -> num) : Prop :=
  forall n u v, (0 < n)%nat -> exists q : Qc, pval n u v = Some q /\ ((alpha < q)%Qc <-> independent n u v).
(** The residual of a regression of variable k on [L]. *)
Definition residual_of (X : nat -> nat -> R) (L : list nat) (k : nat) (h : list R -> R) (s : nat) : R := X k s - h (values X L s).
(** a is a cause of b *)
Definition cause_graph (p : nat) (causes : nat -> list nat) (a b : nat) : Prop := (b < p)%nat /\ In a (causes b).
(** A set of variables that contains the causes of its members; a member that causes no other member. *)
Definition closed (E : nat -> nat -> Prop) (U : list nat) : Prop := forall a b, E a b -> In b U -> In a U.
Definition sink_in (E : nat -> nat -> Prop) (U : list nat) (k : nat) : Prop := forall b, In b U -> ~ E k b.
