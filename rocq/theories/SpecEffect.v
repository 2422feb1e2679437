(** * Interventions in a linear structural model (independent of the code model). *)
From Coq Require Import List Arith QArith Qcanon.
From Verif Require Import Prelude Spec.
Import ListNotations.

(** [x] is the vector of means under do(x_iv = v): the structural equations of the other
    variables keep holding, with noise means [En]. *)
Definition do_solution (n : nat) (B : mat Qc) (En : nat -> Qc) (iv : nat) (v : Qc) (x : nat -> Qc) : Prop :=
  x iv = v /\ forall j, j < n -> j <> iv -> x j = (sumn n (fun k => B j k * x k) + En j)%Qc.
(** [En] are the noise means that explain the observed means [Ex]. *)
Definition explains (n : nat) (B : mat Qc) (Ex En : nat -> Qc) : Prop :=
  forall i, i < n -> Ex i = (sumn n (fun k => B i k * Ex k) + En i)%Qc.
(** Linear predictor that does not use the target. *)
Definition lin_pred (n target : nat) (c : nat -> Qc) (b : Qc) (x : nat -> Qc) : Qc :=
  (sumn n (fun k => if Nat.eqb k target then 0 else c k * x k) + b)%Qc.
(** Inner product of two lists. *)
Fixpoint lin_list (c : list Qc) (x : list Qc) : Qc :=
  match c, x with a :: c', b :: x' => (a * b + lin_list c' x')%Qc | _, _ => 0%Qc end.
(** A predictor has one coefficient per variable other than the target, in index order:
    the coefficient that belongs to variable [k]. *)
Definition coef_at (target : nat) (coef : list Qc) (k : nat) : Qc :=
  nth (if Nat.ltb k target then k else k - 1) coef 0%Qc.
