(** * What it means to change units, reorder or repeat samples, and to be a least squares fit *)
From Coq Require Import Reals Arith List.
From Verif Require Import LibR.
Import ListNotations.
Open Scope R_scope.

(** [pi] chooses the n' rows of a new data set among the n rows of an old one, each equally often: every function of a
    row has the same average over both.  Reordering the rows, and repeating the whole data set, are of this kind. *)
Definition same_distribution (n n' : nat) (pi : nat -> nat) : Prop :=
  (forall s, (s < n')%nat -> (pi s < n)%nat) /\
  forall f : nat -> R, rsum n' (fun s => f (pi s)) / INR n' = rsum n f / INR n.

(** The values of a variable in other units: x -> a x + t. *)
Definition in_units (a t : R) (x : nat -> R) : nat -> R := fun s => a * x s + t.

(** Linear combination of columns. *)
Fixpoint lin (cs : list R) (cols : list (nat -> R)) (s : nat) : R :=
  match cs, cols with c :: cs, x :: cols => c * x s + lin cs cols s | _, _ => 0 end.
(** Sum of squared errors of the prediction [lin cs cols + b] of y. *)
Definition sse (n : nat) (cs : list R) (b : R) (cols : list (nat -> R)) (y : nat -> R) : R :=
  rsum n (fun s => (y s - (lin cs cols s + b)) ^ 2).
(** [cs] are the coefficients of a least squares fit with intercept. *)
Definition least_squares (n : nat) (cols : list (nat -> R)) (y : nat -> R) (cs : list R) : Prop :=
  length cs = length cols /\
  exists b, forall cs' b', length cs' = length cols -> sse n cs b cols y <= sse n cs' b' cols y.
(** The columns and the constant are linearly independent on the n samples. *)
Definition independent_columns (n : nat) (cols : list (nat -> R)) : Prop :=
  forall cs b, length cs = length cols -> (forall s, (s < n)%nat -> lin cs cols s + b = 0) -> Forall (fun c => c = 0) cs.

(** Columns with some signs changed. *)
Definition is_sign (e : R) : Prop := e = 1 \/ e = -1.
Definition flip_columns (es : list R) (cols : list (nat -> R)) : list (nat -> R) :=
  map (fun ec s => fst ec * snd ec s) (combine es cols).

(** Two columns satisfy a linear equation on all samples: one is constant, or one is an affine function of the other. *)
Definition linearly_related (n : nat) (x y : nat -> R) : Prop :=
  exists a b c, (a <> 0 \/ b <> 0) /\ forall s, (s < n)%nat -> a * x s + b * y s = c.

(** Singular values do not depend on the order of rows and columns (changed together), and only on the entries. *)
Definition singular_value_oracle (logsv : nat -> rmat -> R) : Prop :=
  (forall m A B, req m A B -> logsv m A = logsv m B) /\
  forall m (sg : nat -> nat) A, (forall i, (i < m)%nat -> (sg i < m)%nat) ->
    (forall i j, (i < m)%nat -> (j < m)%nat -> sg i = sg j -> i = j) ->
    logsv m (fun s t => A (sg s) (sg t)) = logsv m A.
(** What is used of LinearRegression: least squares, and of LassoLarsIC: one coefficient per column, and columns or targets
    with the opposite sign get coefficients of the opposite sign. *)
Definition regression_oracle (n : nat) (lr : list (nat -> R) -> (nat -> R) -> list R) : Prop :=
  forall cols y, independent_columns n cols -> least_squares n cols y (lr cols y).
