(** * Model of MDLiNA.calc_vif (lingam/lina.py 401-408) *)
From Coq Require Import List Arith Bool QArith Qcanon.
From Verif Require Import Prelude SpecPop.
Import ListNotations.
Open Scope Qc_scope.

Section Vif.
  (** statsmodels' OLS of column i of the N x p table on its other columns, as they are: no constant is added *)
  Variable ols : nat -> nat -> (nat -> nat -> Qc) -> nat -> nat -> Qc.
  (** whether statsmodels finds that the other columns span the constant (then its R^2 is about the mean, else about zero) *)
  Variable has_constant : nat -> nat -> (nat -> nat -> Qc) -> nat -> bool.
  (** statsmodels.stats.outliers_influence.variance_inflation_factor: 1 / (1 - (1 - ssr / tss)); None: infinite or NaN *)
  Definition vif (N p : nat) (X : nat -> nat -> Qc) (i : nat) : num :=
    let r s := X s i - sumn p (fun j => if (j =? i)%nat then 0 else ols N p X i j * X s j) in
    let ssr := sumn N (fun s => r s * r s) in
    let tss := if has_constant N p X i then sumn N (fun s => (X s i - mean N (fun s => X s i)) * (X s i - mean N (fun s => X s i)))
               else sumn N (fun s => X s i * X s i) in
    if qeqb ssr 0 then None else Some (tss / ssr).
  (** 401-408; the function has no [self]: called on an object, the object is passed as well and Python raises TypeError.
      The column "variables" of the result lists 0, ..., p-1. *)
  Definition calc_vif (on_object : bool) (N p : nat) (X : nat -> nat -> Qc) : result (list (nat * num)) :=
    if on_object then Err TypeError else Ok (map (fun i => (i, vif N p X i)) (seq 0 p)).
End Vif.
