(** * Exact samples of a linear acyclic model with independent errors, and the moment statistic of Wang and Drton.

    Nothing here refers to the model of the code. *)
From Coq Require Import List Arith QArith Qcanon Relations.
From Verif Require Import Prelude Spec SpecPop SpecRCDPop.
Import ListNotations.

(** Over the rows, the error [i] is independent of the others: expectations of products factor. *)
Definition independent_errors (N n : nat) (e : nat -> sample) : Prop :=
  forall i, i < n -> forall (f : Qc -> Qc) (g : (nat -> Qc) -> Qc),
  (forall a b, (forall k, k < n -> k <> i -> a k = b k) -> g a = g b) ->
  mean N (fun r => f (e i r) * g (fun k => e k r))%Qc =
  (mean N (fun r => f (e i r)) * mean N (fun r => g (fun k => e k r)))%Qc.

(** x_i = sum_j B_ij x_j + e_i at every row, the graph is acyclic, the errors are independent with mean zero. *)
Record exact_sample (N n : nat) (B : mat Qc) (e x : nat -> sample) : Prop := {
  es_rows : 0 < N;
  es_acyclic : acyclic (edge_of n B);
  es_equation : forall i r, i < n -> r < N -> (x i r = sumn n (fun j => B i j * x j r) + e i r)%Qc;
  es_mean : forall i, i < n -> mean N (e i) = 0%Qc;
  es_independent : independent_errors N n e }.

Definition dot (N : nat) (x y : sample) : Qc := sumn N (fun r => x r * y r)%Qc.
(** [u] is the residual of the least-squares regression (without intercept) of variable [v] on the variables [C]. *)
Definition residual_on (N : nat) (x : nat -> sample) (C : list nat) (v : nat) (u : sample) : Prop :=
  (exists c, forall r, r < N -> (u r = x v r - sumf C (fun q => c q * x q r))%Qc) /\
  forall q, In q C -> dot N u (x q) = 0%Qc.
(** E[u^(K-1) y] E[u^2] - E[u^K] E[u y] *)
Definition moment_stat (N K : nat) (u y : sample) : Qc :=
  (mean N (fun r => u r ^ (K - 1) * y r) * mean N (fun r => u r ^ 2) - mean N (fun r => u r ^ K) * mean N (fun r => u r * y r))%Qc.

(** Parental faithfulness: the statistic of [v] towards one of its parents is not zero, whatever non-descendants
    of [v] other than that parent have been regressed out of [v]. *)
Definition faithful (N n K : nat) (B : mat Qc) (x : nat -> sample) : Prop :=
  forall v p C u, edge_of n B p v -> NoDup C -> ~ In p C ->
  (forall q, In q C -> q < n /\ q <> v /\ ~ ancestor n B v q) ->
  residual_on N x C v u -> moment_stat N K u (x p) <> 0%Qc.
(** No variable has more than [J] direct causes. *)
Definition in_degree_at_most (n J : nat) (B : mat Qc) : Prop :=
  forall v, v < n -> length (filter (fun j => negb (Qc_eq_bool (B v j) 0)) (seq 0 n)) <= J.

(** A solver of normal equations, [b = pinv(Y_C^T Y_C) Y_C^T y_v]: the residual is orthogonal to the columns in [C]. *)
Definition normal_equations (N : nat) (pinv : (nat -> sample) -> list nat -> nat -> nat -> Qc) : Prop :=
  forall x C v, NoDup C -> forall q, In q C -> dot N (fun r => x v r - sumf C (fun p => pinv x C v p * x p r))%Qc (x q) = 0%Qc.
