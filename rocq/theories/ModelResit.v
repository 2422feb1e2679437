(** * Model of lingam/resit.py (RESIT). *)
From Coq Require Import List Arith Bool QArith Qcanon.
From Verif Require Import Prelude.
Import ListNotations.
Open Scope nat_scope.

Section Resit.
  (** [stat predictors k]: HSIC statistic between [X_predictors] and the residual of the
      user's regressor of [X_k] on them (104-108); any float or NaN.
      [accepts k predictors]: the comparison [hsic_p > alpha] of lines 130-136.
      Both depend on the data and on the user's regressor, so they are left arbitrary. *)
  Variable stat : list nat -> nat -> num.
  Variable accepts : nat -> list nat -> bool.

  (** The dictionary [pa]: [None] = key absent. *)
  Definition dict := nat -> option (list nat).
  Definition no_keys : dict := fun _ => None.

  (** resit.py:94-115, one iteration of the loop in [_estimate_order]; state (S, pa, pi). *)
  Definition order_step (st : list nat * dict * list nat) : result (list nat * dict * list nat) :=
    let '(U, pa, pi) := st in
    match U with
    | [k] => Ok (U, upd pa k (Some []), k :: pi)                               (* 96-99 *)
    | _ =>
        let stats := map (fun k => stat (remove_nat k U) k) U in               (* 101-109 *)
        match np_argmin stats with
        | None => Err ValueError
        | Some i =>
            match nth_error U i with
            | None => Err IndexError
            | Some k =>                                                        (* 111-114 *)
                let U' := remove_nat k U in
                Ok (U', upd pa k (Some U'), k :: pi)
            end
        end
    end.
  Fixpoint order_loop (m : nat) (st : list nat * dict * list nat) : result (list nat * dict * list nat) :=
    match m with
    | 0 => Ok st
    | S m' => let* st' := order_step st in order_loop m' st'
    end.
  (** resit.py:90-117 [_estimate_order] *)
  Definition estimate_order (n : nat) : result (dict * list nat) :=
    let* (_, pa, pi) := order_loop n (seq 0 n, no_keys, []) in Ok (pa, pi).

  (** [list.remove(l)]: first occurrence (absent would raise ValueError; [l] is present). *)
  Fixpoint remove_first (x : nat) (l : list nat) : list nat :=
    match l with [] => [] | y :: r => if y =? x then r else y :: remove_first x r end.

  (** resit.py:124-136, the inner loop over the copied parent list. *)
  Definition prune_one (target : nat) (cur : list nat) (l : nat) : list nat :=
    let predictors := remove_nat l cur in
    match predictors with
    | [] => cur                                                                (* 128-129 *)
    | _ => if accepts target predictors then remove_first l cur else cur       (* 135-136 *)
    end.
  Definition prune_parents (target : nat) (parents : list nat) : list nat :=
    fold_left (prune_one target) parents parents.
  (** resit.py:121-138: k runs over 1..n-1. *)
  Fixpoint remove_edges (pi : list nat) (pa : dict) : result dict :=
    match pi with
    | [] => Ok pa
    | v :: r =>
        match pa v with
        | None => Err KeyError
        | Some parents => remove_edges r (upd pa v (Some (prune_parents v parents)))
        end
    end.

  (** resit.py:75-83 *)
  Definition resit_matrix (pa : dict) : mat Qc :=
    fun i p => match pa i with
               | Some l => if memb p l then 1%Qc else 0%Qc
               | None => 0%Qc
               end.
  (** resit.py:56-88 [fit]: (causal_order_, adjacency_matrix_). *)
  Definition resit_fit (n : nat) : result (list nat * mat Qc) :=
    let* (pa, pi) := estimate_order n in
    let* pa' := remove_edges (tl pi) pa in
    Ok (pi, resit_matrix pa').
End Resit.
