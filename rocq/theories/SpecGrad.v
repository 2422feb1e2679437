(** * What it means for a vector or a matrix to be the gradient of a function

    Independent of the models: the derivative along every direction is the inner product with the direction. *)
From Coq Require Import Reals.
From Verif Require Import LibR.
Open Scope R_scope.

(** [G] is the gradient at [W] of a function of r x c matrices. *)
Definition is_gradient (r c : nat) (F : rmat -> R) (W G : rmat) : Prop :=
  forall V : rmat, derivable_pt_lim (fun t => F (fun i j => W i j + t * V i j)) 0
                     (rsum r (fun i => rsum c (fun j => G i j * V i j))).
(** [g] is the gradient at [w] of a function of vectors with [p] entries. *)
Definition is_gradient_vec (p : nat) (F : (nat -> R) -> R) (w g : nat -> R) : Prop :=
  forall v : nat -> R, derivable_pt_lim (fun t => F (fun k => w k + t * v k)) 0 (rsum p (fun k => g k * v k)).

(** A direction along which [F] falls from [W] on: for all small steps the value is smaller. *)
Definition falls (F : rmat -> R) (W V : rmat) : Prop :=
  exists e : R, 0 < e /\ forall t, 0 < t -> t < e -> F (fun i j => W i j + t * V i j) < F W.
Definition rises (F : rmat -> R) (W V : rmat) : Prop :=
  exists e : R, 0 < e /\ forall t, 0 < t -> t < e -> F W < F (fun i j => W i j + t * V i j).

(** ** Negative log-likelihoods of one entry [x] with linear predictor [m] *)
(** A binary variable with success probability e^m / (1 + e^m). *)
Definition nll_binary (x m : R) : R := - (x * ln (exp m / (1 + exp m)) + (1 - x) * ln (1 / (1 + exp m))).
(** A count with mean e^m; [fx] is the factorial of the count. *)
Definition nll_count (fx x m : R) : R := - ln (exp (- exp m) * exp (x * m) / fx).
(** A continuous variable whose disturbance has density proportional to 1 / cosh. *)
Definition nll_cosh (x m : R) : R := - ln (/ cosh (x - m)).

(** ** [K] is the inverse of the m x m matrix [S] *)
Definition inverse_of (m : nat) (S K : rmat) : Prop :=
  forall i j, (i < m)%nat -> (j < m)%nat ->
    rsum m (fun l => S i l * K l j) = (if Nat.eqb i j then 1 else 0) /\ rsum m (fun l => K i l * S l j) = (if Nat.eqb i j then 1 else 0).
(** Mean and squared deviation of [n] numbers. *)
Definition mean_of (n : nat) (v : nat -> R) : R := rsum n v / INR n.
Definition deviates (n : nat) (v : nat -> R) : Prop := exists s t, (s < n)%nat /\ (t < n)%nat /\ v s <> v t.
