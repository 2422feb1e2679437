(** * Model of RCD.bootstrap (lingam/rcd.py 523-561) with the exceptions of the total effects *)
From Coq Require Import List Arith Bool ZArith QArith Qcanon.
From Verif Require Import Prelude ModelPaths ModelRCD.
Import ListNotations.
Open Scope nat_scope.

(** rcd.py 441-461: estimate_total_effect2; the warnings of 443-448 and 452-455 have no effect on the value.
    calculate_total_effect may raise. *)
Definition rcd_effect2 (n : nat) (B : mat num) (from to : nat) : result num :=
  if existsb (fun j => match B from j with None => true | _ => false end) (seq 0 n) then Ok None    (* 451-456 *)
  else calculate_total_effect n B from to None.                                                    (* 458 *)

(** rcd.py 556-558: the pairs (to, from_) in the order of the two loops.  The iteration order of a python set of ints
    is simplified to the increasing one; it can only change which of several exceptions is met first. *)
Definition rcd_boot_pairs (n : nat) (M : sets) : list (nat * nat) :=
  flat_map (fun to => map (fun from => (to, from)) (elems n (M to))) (seq 0 n).
(** rcd.py 547, 558: the array starts as zeros and receives one entry per pair *)
Fixpoint rcd_boot_store (n : nat) (B : mat num) (l : list (nat * nat)) (te : mat num) : result (mat num) :=
  match l with
  | [] => Ok te
  | (to, from) :: r =>
      let* e := rcd_effect2 n B from to in
      rcd_boot_store n B r (fun i j => if (i =? to) && (j =? from) then e else te i j)
  end.

(** rcd.py 548-558.  [fit] is the fit of one resample; the object keeps the ancestors and the matrix of the last one that
    finished. *)
Fixpoint rcd_boot_loop {D : Type} (n : nat) (fit : D -> result (sets * mat num)) (Xs : list D) (o : option (sets * mat num))
    : option (sets * mat num) * result (list (mat num * mat num)) :=
  match Xs with
  | [] => (o, Ok [])
  | X :: Xs' =>
      match fit X with
      | Err e => (o, Err e)                                                                        (* 550 *)
      | Ok (M, B) =>
          match rcd_boot_store n B (rcd_boot_pairs n M) (fun _ _ => Some 0%Qc) with                (* 554-558 *)
          | Err e => (Some (M, B), Err e)
          | Ok te =>
              match rcd_boot_loop n fit Xs' (Some (M, B)) with
              | (o', Ok l) => (o', Ok ((B, te) :: l))
              | (o', Err e) => (o', Err e)
              end
          end
      end
  end.
(** rcd.py 523-561; resample k is the k-th call of sklearn's resample *)
Definition rcd_bootstrap {D : Type} (n : nat) (fit : D -> result (sets * mat num)) (n_sampling : Z) (resample : nat -> D)
    (o : option (sets * mat num)) : option (sets * mat num) * result (list (mat num * mat num)) :=
  if (0 <? n_sampling)%Z then rcd_boot_loop n fit (map resample (seq 0 (Z.to_nat n_sampling))) o
  else (o, Err ValueError).                                                                        (* 539-543 *)
