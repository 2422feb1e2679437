(** * The regression steps on data: lingam/direct_lingam.py (_residual 149-151, kernel score 284-308) and
    lingam/base.py (estimate_total_effect 51-91) *)
From Coq Require Import List Arith Bool QArith Qcanon.
From Verif Require Import Prelude SpecPop ModelDirect.
Import ListNotations.
Open Scope nat_scope.

(** direct_lingam.py 149-151: xi - cov(xi, xj) / var(xj) * xj, both with denominator N; the columns have
    [N] rows.  Division by a zero variance (NaN in Python) is not met in the theorems. *)
Definition np_residual (N : nat) (xi xj : sample) : sample := fun r => (xi r - cov N xi xj / var N xj * xj r)%Qc.

(** direct_lingam.py 294-308: Tkernel of candidate [j]; [mi] is _mutual_information (262-282). *)
Definition kernel_score (N : nat) (mi : sample -> sample -> num) (X : nat -> sample) (U Uc Vj : list nat) (j : nat) : num :=
  fold_left (fun T i => if i =? j then T
                        else nadd T (mi (X j) (if memb j Vj && memb i Uc then X i else np_residual N (X i) (X j))))
            U (Some 0%Qc).

(** base.py 51-91.  [ols preds t p]: the coefficient LinearRegression finds for predictor [p].
    The second component tells whether the warning 74-80 is given. *)
Definition base_total_effect (ols : list nat -> nat -> nat -> num) (n : nat) (K : list nat) (A : mat num) (from to_ : nat)
  : result (num * bool) :=
  match index_of from K, index_of to_ K with
  | Some a, Some b =>
      let parents := filter (fun j => match A from j with Some w => qltb 0 (qabs w) | None => false end) (seq 0 n) in  (* 83 *)
      let predictors := from :: parents in                                                   (* 84-85 *)
      Ok (ols predictors to_ from, b <? a)                                                   (* 73, 88-91 *)
  | _, _ => Err ValueError                                                                   (* list.index *)
  end.
