(** * RESIT on data: regressions, residuals and tests of lingam/resit.py. *)
From Coq Require Import Reals Arith List QArith Qcanon.
From Verif Require Import Prelude ModelResit.
Import ListNotations.
Open Scope nat_scope.

Section ResitData.
  (** [reg n rows y]: the prediction learnt by the user's regressor from n rows ([self._reg.fit], [self._reg.predict]). *)
  Variable reg : nat -> (nat -> list R) -> (nat -> R) -> list R -> R.
  (** hsic.py [hsic_test_gamma]: statistic and p-value of a column and a block of columns (or NaN). *)
  Variable hsic_stat hsic_p : nat -> (nat -> R) -> (nat -> list R) -> num.
  Variable alpha : Qc.
  (** n rows; [X j s] is the value of column j in row s. *)
  Variable n : nat.
  Variable X : nat -> nat -> R.

  (** [X[:, predictors]] *)
  Definition columns (predictors : list nat) (s : nat) : list R := map (fun j => X j s) predictors.
  (** resit.py:104-106 and 130-131: [residual = X[:, k] - self._reg.predict(X[:, predictors])] *)
  Definition residual (predictors : list nat) (k : nat) (s : nat) : R :=
    (X k s - reg n (columns predictors) (X k) (columns predictors s))%R.
  (** resit.py:107-109 *)
  Definition data_stat (predictors : list nat) (k : nat) : num :=
    hsic_stat n (residual predictors k) (columns predictors).
  (** resit.py:132-135: the residual is compared with the remaining predictors. *)
  Definition data_accepts (k : nat) (predictors : list nat) : bool :=
    match hsic_p n (residual predictors k) (columns predictors) with
    | Some p => qltb alpha p
    | None => false
    end.
  (** resit.py:56-88 [fit] on p columns *)
  Definition resit_data (p : nat) : result (list nat * mat Qc) := resit_fit data_stat data_accepts p.
End ResitData.
