(** * Specification vocabulary for path queries (independent of the model). *)
From Coq Require Import List Arith Lia Bool QArith Qcanon Relations.
From Verif Require Import Prelude Spec.
Import ListNotations.

(** Edge a -> b of a matrix that may contain NaN: coefficient [b,a] exceeds the threshold
    in absolute value (NaN counts as 0). *)
Definition thr_edge (n : nat) (dag : mat num) (m : Qc) : graph :=
  fun a b => a < n /\ b < n /\ (m < qabs (nan_to_num (dag b a)))%Qc.

(** The same graph without the edges that leave [t]. *)
Definition stop_at (t : nat) (E : graph) : graph := fun a b => a <> t /\ E a b.

(** A cycle can be reached from [a]. *)
Definition reaches_cycle (E : graph) (a : nat) : Prop :=
  exists v, (v = a \/ clos_trans nat E a v) /\ clos_trans nat E v v.

(** Product of the coefficients along a path, NaN propagating. *)
Fixpoint walk_weight_num (dag : mat num) (p : list nat) : num :=
  match p with
  | a :: ((b :: _) as r) => nmul (dag b a) (walk_weight_num dag r)
  | _ => Some 1%Qc
  end.
