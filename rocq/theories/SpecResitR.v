(** * Units and origins of the variables, and regressors that respect them.

    Nothing here refers to the model of the code. *)
From Coq Require Import Reals Arith List.
Import ListNotations.
Open Scope R_scope.

(** Variable j in a unit and with an origin of its own *)
Definition rescaled (a b : nat -> R) (X : nat -> nat -> R) : nat -> nat -> R := fun j s => a j * X j s + b j.
(** One row of explanatory values, each in its own unit *)
Fixpoint rescaled_row (ab : list (R * R)) (row : list R) : list R :=
  match ab, row with
  | (a, b) :: ab, x :: row => a * x + b :: rescaled_row ab row
  | _, _ => row
  end.
(** The prediction does not depend on the units and origins in which the training data and the query are expressed. *)
Definition unit_free (reg : nat -> (nat -> list R) -> (nat -> R) -> list R -> R) : Prop :=
  forall n rows y row ab c d, (0 < n)%nat -> (forall q, In q ab -> fst q <> 0) -> c <> 0 ->
  reg n (fun s => rescaled_row ab (rows s)) (fun s => c * y s + d) (rescaled_row ab row) = c * reg n rows y row + d.
