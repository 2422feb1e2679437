(** * VARLiNGAM with DirectLiNGAM as its instantaneous model: lingam/var_lingam.py 86-103 *)
From Coq Require Import List Arith Bool QArith Qcanon.
From Verif Require Import Prelude SpecPop ModelPaths ModelDirect ModelTotal ModelVAR.
Import ListNotations.
Open Scope nat_scope.

(** 88-89 (the default DirectLiNGAM without prior knowledge) and 100-101 [model.fit(residuals)]; 103, 106:
    [adjacency_matrix_] and [causal_order_].  [score], [lassoD]: the measure and the adaptive lasso on the residuals.
    An exception inside the fit ends [VARLiNGAM.fit] in Python; it does not occur in the theorems and is
    represented by an empty order.  A NaN coefficient (read as 0 here) does not occur in them either. *)
Definition direct_on_rows (score : nat -> (nat -> sample) -> list nat -> list nat -> list nat -> nat -> num) (ms : measure)
    (lassoD : nat -> series -> list nat -> nat -> nat -> num) (n : nat) (rows : nat) (R : series) : list nat * mat Qc :=
  match direct_fit (np_residual rows) (score rows) ms (lassoD rows R) n true NoPK (fun i r => R r i) with
  | Ok (K, A) => (K, fun i j => nan_to_num (A i j))
  | Err _ => ([], zmat)
  end.
