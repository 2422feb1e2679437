(** * BottomUpParceLiNGAM on data: the residuals of lingam/bottom_up_parce_lingam.py.

    ModelParce takes the dependence of each residual as a function of the variables involved; here it is computed from the data.
    The regression, HSIC, the F-correlation and the tail of the chi-square distribution remain parameters. *)
From Coq Require Import List Arith Bool QArith Qcanon.
From Verif Require Import Prelude SpecPop ModelParce.
Import ListNotations.
Open Scope nat_scope.

Section Data.
  Variable N : nat.
  (** [ols X ps y]: the coefficients of the regression of [y] on the columns [ps] of [X] (288-302; by default
      the pseudoinverse of their covariance matrix times the covariances with [y]). *)
  Variable ols : (nat -> sample) -> list nat -> sample -> nat -> Qc.
  (** [hsic x r]: statistic and p-value of hsic_test_gamma; [fco x r]: f_correlation *)
  Variables (hsic : sample -> sample -> num * num) (fco : sample -> sample -> num).
  Variables (m2log : Qc -> Qc) (sf : ext -> nat -> num) (thr ind_corr : Qc) (mode : indep) (lasso : list nat -> nat -> nat -> num).
  Variable X : nat -> sample.

  (** 122: every column is centred *)
  Definition centred (i : nat) : sample := let c := mean N (X i) in fun r => (X i r - c)%Qc.
  (** 288-302 _compute_residuals (without a regressor: no intercept) *)
  Definition parce_resid (t : nat) (ps : list nat) : sample :=
    let c := ols centred ps (centred t) in
    fun r => (centred t r - sumf ps (fun p => c p * centred p r))%Qc.
  (** fit (92-142) on the [n] columns of [X], without prior knowledge *)
  Definition parce_data_fit (n : nat) : result (list item * mat num) :=
    parce_fit (fun t ps i => hsic (centred i) (parce_resid t ps)) (fun t ps i => fco (centred i) (parce_resid t ps))
              m2log sf thr ind_corr mode lasso n None true.
End Data.
