(** * Specification vocabulary for the data utilities (independent of the model) *)
From Coq Require Import List Arith Bool ZArith QArith Qcanon String.
From Verif Require Import Prelude Spec SpecPop.
Import ListNotations.
Open Scope nat_scope.

(** The value of the linear combination [cs] of the columns [cols] at row [r]. *)
Definition combination (cs : list Qc) (cols : list sample) (r : nat) : Qc :=
  qsum (map (fun cx => (fst cx * snd cx r)%Qc) (combine cs cols)).
(** [cs] and [b] are coefficients and intercept of a least-squares fit of [y] on [cols]: the residual has
    mean zero and is uncorrelated with every column. *)
Definition ls_fit (N : nat) (cols : list sample) (y : sample) (cs : list Qc) (b : Qc) : Prop :=
  let res := fun r => (y r - (combination cs cols r + b))%Qc in
  List.length cs = List.length cols /\ mean N res = 0%Qc /\ forall c, In c cols -> cov N res c = 0%Qc.
(** A linear regression procedure that finds least-squares fits. *)
Definition fits_exactly (N : nat) (lr : list sample -> sample -> list Qc * Qc) : Prop :=
  forall cols y, cols <> [] -> ls_fit N cols y (fst (lr cols y)) (snd (lr cols y)).

(** ** The description of a structural equation model *)
Section Description.
  (** [dec i]: the decimal digits of i; [fmt q]: q with six decimals *)
  Variables (dec : nat -> string) (fmt : Qc -> string) (n : nat) (A : mat num).
  Local Open Scope string_scope.
  Definition newline : string := String (Ascii.ascii_of_nat 10) "".
  (** An entry belongs to the equation if it is unknown or not (numerically) zero. *)
  Definition in_equation (i j : nat) : Prop :=
    match A i j with None => True | Some q => (qf 1 100000000 < qabs q)%Qc end.
  (** The common cause of two variables whose relation is unknown; the same name for (i, j) and (j, i). *)
  Definition latent_name (i j : nat) : string := "eta_" ++ dec (Nat.min i j) ++ "_" ++ dec (Nat.max i j).
  Definition term_text (i j : nat) : string :=
    match A i j with None => latent_name i j | Some q => fmt q ++ " * x" ++ dec j end.
  Definition equation_text (i : nat) (js : list nat) : string :=
    "x" ++ dec i ++ " ~ " ++ String.concat " + " (map (term_text i) js) ++ newline.
End Description.
