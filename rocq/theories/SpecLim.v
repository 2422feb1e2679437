(** * Specification of LiM's local search, independent of the model. *)
From Coq Require Import List Arith Bool ZArith QArith Qcanon.
From Verif Require Import Prelude Spec.
Import ListNotations.
Open Scope nat_scope.

Definition same_entries (d : nat) (V W : mat Qc) : Prop := forall i j, i < d -> j < d -> V i j = W i j.
(** The matrix [W] after reversing the edges selected by [R]: an edge j -> i (entry (i,j)) becomes an
    edge of weight 1 in the opposite direction.  When both directions are selected, the entry above
    the diagonal wins. *)
Definition reversal (W : mat Qc) (R : nat -> nat -> bool) : mat Qc :=
  fun i j => if i <=? j then (if R j i then 1 else if R i j then 0 else W i j)%Qc
             else (if R i j then 0 else if R j i then 1 else W i j)%Qc.
Definition a_reversal (d : nat) (W V : mat Qc) : Prop :=
  exists R, (forall i j, R i j = true -> i < d /\ j < d /\ W i j <> 0%Qc) /\ same_entries d V (reversal W R).
Definition one_removed (d : nat) (W V : mat Qc) : Prop :=
  exists i j, i < d /\ j < d /\ W i j <> 0%Qc /\ same_entries d V (upd2 W i j 0%Qc).
(** A new edge of weight 1 at a position where W + W^T + I is zero: two variables without an edge in
    either direction, or with two opposite weights that cancel; a diagonal entry only if it is -1/2. *)
Definition one_added (d : nat) (W V : mat Qc) : Prop :=
  exists i j, i < d /\ j < d /\ (W i j + W j i + midn i j)%Qc = 0%Qc /\ same_entries d V (upd2 W i j 1%Qc).
Definition natsum (n : nat) (f : nat -> nat) : nat := fold_right plus 0 (map f (seq 0 n)).
Definition edge_count (d : nat) (W : mat Qc) : nat :=
  natsum d (fun i => natsum d (fun j => if Qc_eq_dec (W i j) 0 then 0 else 1)).
Definition same_edges (d : nat) (V W : mat Qc) : Prop :=
  forall i j, i < d -> j < d -> (V i j = 0%Qc <-> W i j = 0%Qc).
(** [V] is what remains of [W] after trying the candidates [C]: [W] itself or an acceptable candidate
    with smaller loss, and no acceptable candidate has a smaller loss. *)
Definition chosen (ok : mat Qc -> Prop) (loss : mat Qc -> Qc) (C : mat Qc -> Prop) (W V : mat Qc) : Prop :=
  (V = W \/ C V /\ ok V /\ (loss V < loss W)%Qc) /\ forall U, C U -> ok U -> (loss V <= loss U)%Qc.
