(** * An effect of the same independent causes in several data sets.

    Nothing here refers to the model of the code. *)
From Coq Require Import Reals Arith List QArith Qcanon.
From Verif Require Import Prelude LibR SpecMeasure SpecResit SpecCam.
Import ListNotations.
Open Scope R_scope.

(** One data set: its rows, the functions of the causes, the disturbances, and the columns. *)
Record star := { st_rows : nat; st_f : nat -> R -> R; st_U : nat -> nat -> R; st_X : nat -> nat -> R }.
(** Variables 0..m-1 are independent causes of variable m: x_m is the sum of a function of each of them and noise. *)
Definition star_data (m : nat) (g : star) : Prop :=
  (0 < st_rows g)%nat /\ mutually_independent (st_rows g) (S m) (st_U g) /\
  (forall i s, (i < m)%nat -> (s < st_rows g)%nat -> st_X g i s = st_U g i s) /\
  (forall s, (s < st_rows g)%nat -> st_X g m s = rsum m (fun i => st_f g i (st_U g i s)) + st_U g m s).
(** Cause i makes a difference in this data set. *)
Definition matters (g : star) (i : nat) : Prop :=
  exists s t, (s < st_rows g)%nat /\ (t < st_rows g)%nat /\ st_f g i (st_U g i s) <> st_f g i (st_U g i t).
(** In this data set cause i does not look like an effect of variable m with the contributions of [Q] removed from it. *)
Definition oriented (m : nat) (g : star) (i : nat) (Q : list nat) : Prop :=
  forall h, additive_mean (st_rows g) 1 (values (st_X g) [m]) (st_X g i) h ->
    ~ independent (st_rows g) (residual_of (st_X g) [m] i h) (fun s => rsum m (fun j => if existsb (Nat.eqb j) Q then 0 else st_f g j (st_U g j s)) + st_U g m s).
(** A test without errors: the p-value is 1 for independent columns and 0 for dependent ones. *)
Definition decisive_p_value (pval : nat -> (nat -> R) -> (nat -> list R) -> num) : Prop :=
  forall n u v, (0 < n)%nat -> (independent n u v -> pval n u v = Some 1%Qc) /\ (~ independent n u v -> pval n u v = Some 0%Qc).
