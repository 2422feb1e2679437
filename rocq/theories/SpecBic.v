(** * Specifications for the score of LiM: densities and likelihoods *)
From Coq Require Import Reals Arith List.
From Verif Require Import LibR.
Import ListNotations.
Open Scope R_scope.

(** The Laplace density with location 0 and standard deviation sigma. *)
Definition laplace (sigma z : R) : R := exp (- sqrt 2 * Rabs z / sigma) / (sqrt 2 * sigma).
(** The Poisson distribution with mean lambda. *)
Definition poisson_pmf (lambda : R) (k : nat) : R := exp (- lambda) * lambda ^ k / INR (fact k).
(** The integral of f over the line is m: f has an antiderivative whose increments over large intervals approach m. *)
Definition total_mass (f : R -> R) (m : R) : Prop := exists F, (forall x, derivable_pt_lim F x (f x)) /\
  forall eps, 0 < eps -> exists T, forall a b, a <= - T -> T <= b -> Rabs (F b - F a - m) < eps.
(** The sum over a list. *)
Definition lsum (l : list R) (f : R -> R) : R := fold_right (fun v acc => f v + acc) 0 l.
