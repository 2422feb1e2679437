(** * Model of BottomUpParceLiNGAM.bootstrap (lingam/bottom_up_parce_lingam.py 572-618) *)
From Coq Require Import List Arith Bool ZArith QArith Qcanon.
From Verif Require Import Prelude ModelParce ModelQuery.
Import ListNotations.
Open Scope nat_scope.

(** 606-616: the two outer loops and the loop over a list of unknown order: pairs (to, from_item) *)
Fixpoint parce_boot_pairs (order : list item) : list (item * nat) :=
  match order with
  | [] => []
  | it :: r =>
      flat_map (fun to => match it with Single v => [(to, v)] | Block l => map (pair to) l end) r ++ parce_boot_pairs r
  end.
(** 599, 610-616: the stores into the array of zeros.  Only the first item of an order is a list, so [to] never is; comparing a list with
    an index would raise. *)
Fixpoint parce_boot_store (n : nat) (order : list item) (B : mat num) (l : list (item * nat)) (te : mat num) : result (mat num) :=
  match l with
  | [] => Ok te
  | (Block _, _) :: _ => Err TypeError
  | (Single to, from) :: r =>
      let* e := parce_estimate_total_effect2 n order B from to in
      parce_boot_store n order B r (upd2 te to from (fst e))
  end.
(** 600-603: the loop over the resamples; [fit] is the fit of one resample *)
Fixpoint parce_boot_loop {D : Type} (n : nat) (fit : D -> result (list item * mat num)) (Xs : list D) : result (list (mat num * mat num)) :=
  match Xs with
  | [] => Ok []
  | X :: Xs' =>
      let* (order, B) := fit X in
      let* te := parce_boot_store n order B (parce_boot_pairs order) (fun _ _ => Some 0%Qc) in
      let* r := parce_boot_loop n fit Xs' in
      Ok ((B, te) :: r)
  end.
(** 588-618: the check of n_sampling, then the loop; the object is left out *)
Definition parce_bootstrap {D : Type} (n : nat) (fit : D -> result (list item * mat num)) (n_sampling : Z) (resample : nat -> D)
    : result (list (mat num * mat num)) :=
  if (0 <? n_sampling)%Z then parce_boot_loop n fit (map resample (seq 0 (Z.to_nat n_sampling))) else Err ValueError.
