(** * Data generated by a linear acyclic model: vocabulary for statements about correctness.

    Nothing here refers to the model of the code. *)
From Coq Require Import List Arith QArith Qcanon.
From Verif Require Import Prelude Spec.
Import ListNotations.

(** A variable observed at the rows 0..N-1. *)
Definition sample := nat -> Qc.
Definition mean (N : nat) (x : sample) : Qc := (sumn N x / qn N)%Qc.
Definition cov (N : nat) (x y : sample) : Qc := (sumn N (fun r => (x r - mean N x) * (y r - mean N y)) / qn N)%Qc.
Definition var (N : nat) (x : sample) : Qc := cov N x x.

(** The [n] variables [x] obey x_i = sum_j B_ij x_j + e_i at every row, the graph of [B] is acyclic, and
    the errors have positive variance and are uncorrelated (intercepts are part of the errors). *)
Record linear_model (N n : nat) (B : mat Qc) (e x : nat -> sample) : Prop := {
  lm_acyclic : acyclic (edge_of n B);
  lm_equation : forall i r, i < n -> r < N -> (x i r = sumn n (fun j => B i j * x j r) + e i r)%Qc;
  lm_variance : forall i, i < n -> (0 < var N (e i))%Qc;
  lm_uncorrelated : forall i j, i < n -> j < n -> i <> j -> cov N (e i) (e j) = 0%Qc }.

(** The variables in [U] obey the equations of [B] restricted to [U]. *)
Definition submodel (N : nat) (B : mat Qc) (e : nat -> sample) (U : list nat) (x : nat -> sample) : Prop :=
  forall i r, In i U -> r < N -> (x i r = sumf U (fun j => B i j * x j r) + e i r)%Qc.
(** [i] has no parents in [U]. *)
Definition exogenous_in (B : mat Qc) (U : list nat) (i : nat) : Prop := forall j, In j U -> B i j = 0%Qc.

(** [c] are the coefficients of a least-squares regression (with intercept) of [y] on the variables [ps]:
    the residual is uncorrelated with every regressor. *)
Definition least_squares (N : nat) (x : nat -> sample) (y : sample) (ps : list nat) (c : nat -> Qc) : Prop :=
  forall q, In q ps -> cov N (fun r => y r - sumf ps (fun p => c p * x p r))%Qc (x q) = 0%Qc.

(** [T] is the matrix of total effects: T (I - B) = I. *)
Definition total_effects (n : nat) (B T : mat Qc) : Prop := meq n (mmul n T (msub midn B)) midn.

(** A score that orders the candidates by exogeneity: on data obeying the equations on [U], every candidate
    has a score, and those without parents in [U] score better ([R]) than those with. *)
Definition separates (R : Qc -> Qc -> Prop) (N n : nat) (B : mat Qc) (e : nat -> sample)
    (score : (nat -> sample) -> list nat -> list nat -> list nat -> nat -> num) : Prop :=
  forall U x Uc, NoDup U -> (forall i, In i U -> i < n) -> submodel N B e U x -> (forall i, In i Uc -> In i U) ->
  (forall i, In i Uc -> exists v, score x U Uc [] i = Some v) /\
  (forall i j v w, In i Uc -> In j Uc -> exogenous_in B U i -> ~ exogenous_in B U j ->
     score x U Uc [] i = Some v -> score x U Uc [] j = Some w -> R v w).

(** [dep a b]: a non-negative dependence measure between a variable and a residual ([res y x]: residual of [y]
    on [x]), zero for the residuals on a variable without parents, positive for some residual on any other. *)
Definition detects_dependence (res : sample -> sample -> sample) (dep : sample -> sample -> num)
    (N n : nat) (B : mat Qc) (e : nat -> sample) : Prop :=
  forall U x j, NoDup U -> (forall i, In i U -> i < n) -> submodel N B e U x -> In j U ->
  (forall i, In i U -> i <> j -> exists v, dep (x j) (res (x i) (x j)) = Some v /\ (0 <= v)%Qc /\ (exogenous_in B U j -> v = 0%Qc)) /\
  (~ exogenous_in B U j -> exists i v, In i U /\ i <> j /\ dep (x j) (res (x i) (x j)) = Some v /\ (0 < v)%Qc).

(** [diff a b]: a difference in favour of "a before b", defined for every pair, not negative when [a] has no
    parents, and negative for some [b] when it has. *)
Definition detects_direction (diff : sample -> sample -> num) (N n : nat) (B : mat Qc) (e : nat -> sample) : Prop :=
  forall U x i, NoDup U -> (forall i, In i U -> i < n) -> submodel N B e U x -> In i U ->
  (forall j, In j U -> j <> i -> exists v, diff (x i) (x j) = Some v /\ (exogenous_in B U i -> (0 <= v)%Qc)) /\
  (~ exogenous_in B U i -> exists j v, In j U /\ j <> i /\ diff (x i) (x j) = Some v /\ (v < 0)%Qc).

(** A regression procedure that returns least-squares coefficients. *)
Definition exact_regression (N n : nat) (x : nat -> sample) (reg : list nat -> nat -> nat -> num) : Prop :=
  forall ps i, i < n -> (forall p, In p ps -> p < n) -> NoDup ps -> ps <> [] ->
  exists c, least_squares N x (x i) ps c /\ forall p, In p ps -> reg ps i p = Some (c p).
