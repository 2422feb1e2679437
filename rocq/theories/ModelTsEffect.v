(** * VARLiNGAM.estimate_total_effect (lingam/var_lingam.py 196-248) and VARMALiNGAM.estimate_total_effect (lingam/varma_lingam.py 224-291):
    total effects by regression.  Indices in the range of the variables; warnings as a boolean. *)
From Coq Require Import List Arith Bool QArith Qcanon.
From Verif Require Import Prelude SpecPop ModelVAR.
Import ListNotations.
Open Scope nat_scope.

(** np.where(np.abs(am[from_index]) > 0)[0] for the blocks [Bs] side by side (var 230-231, varma 269-274) *)
Definition nonzero_cols (n : nat) (Bs : list (mat Qc)) (from : nat) : list nat :=
  filter (fun c => qltb 0 (qabs (nth (c / n) Bs zmat from (c mod n)))) (seq 0 (n * length Bs)).
(** The check of the order (var 216-224, varma 245-253): list.index, and whether a warning is given. *)
Definition order_check (order : list nat) (from to_ lag : nat) : result bool :=
  if lag =? 0 then match index_of from order, index_of to_ order with Some a, Some b => Ok (b <? a) | _, _ => Err ValueError end else Ok false.
(** var 226-230 X_joined: column [c]; all blocks 0..lags + from_lag are rolled copies of X *)
Definition var_column (N n : nat) (X : series) (c : nat) : sample := fun t => np_roll N (c / n) X t (c mod n).
(** var 196-248; [lr cols y k]: the k-th coefficient of LinearRegression *)
Definition var_total_effect (lr : list sample -> sample -> nat -> Qc) (n : nat) (Bs : list (mat Qc)) (order : list nat) (N : nat) (X : series) (from to_ lag : nat) : result (Qc * bool) :=
  let* warn := order_check order from to_ lag in
  let parents := map (fun c => c + n * lag) (nonzero_cols n Bs from) in                              (* 233-236 *)
  let predictors := from + n * lag :: parents in                                                     (* 237-241 *)
  Ok (lr (map (var_column N n X) predictors) (var_column N n X to_) 0, warn).                        (* 244-248 *)
(** varma 255-268 X_joined: X at the lags 0..p, then the errors at the lags 1..q, then from_lag blocks of zeros *)
Definition varma_column (N n p q : nat) (X : series) (rows : nat) (E : series) (c : nat) : sample :=
  fun t => if c <? n * (1 + p) then np_roll N (c / n) X t (c mod n)
           else if c <? n * (1 + p + q) then
             let c' := c - n * (1 + p) in if rows =? N then np_roll N (c' / n + 1) E t (c' mod n) else E 0 (c' mod n)
           else 0%Qc.
(** varma 224-291; [rows]: the number of rows of the errors given by the caller *)
Definition varma_total_effect (lr : list sample -> sample -> nat -> Qc) (n : nat) (psis omegas : list (mat Qc)) (order : list nat) (p q N : nat) (X : series) (rows : nat) (E : series)
    (from to_ lag : nat) : result (Qc * bool) :=
  let* warn := order_check order from to_ lag in
  let* _ := join_rows_ok N rows q in                                                                 (* 264-268 *)
  let s := if lag =? 0 then 0 else n in                                                              (* 277-278 *)
  let predictors := from + s :: map (fun c => c + s) (nonzero_cols n (psis ++ omegas) from) in       (* 276-280 *)
  Ok (lr (map (varma_column N n p q X rows E) predictors) (varma_column N n p q X rows E to_) 0, warn).
