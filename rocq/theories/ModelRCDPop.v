(** * RCD on data: the tests of lingam/rcd.py applied to residuals.

    ModelRCD takes the outcome of every test as a function of the variables involved; here these functions are computed
    from the data as in the code.  The regression, the correlation, normality and independence tests and the
    minimiser of MLHSICR remain parameters, now functions of the columns they are given. *)
From Coq Require Import List Arith Bool QArith Qcanon.
From Verif Require Import Prelude SpecPop ModelRCD.
Import ListNotations.
Open Scope nat_scope.

Section Data.
  (** [ols X ps y]: coef_ of LinearRegression of [y] on the columns [ps] of [X]; [icpt]: its intercept_. *)
  Variable ols : (nat -> sample) -> list nat -> sample -> nat -> Qc.
  Variable icpt : (nat -> sample) -> list nat -> sample -> Qc.
  Variables (shapiro : sample -> bool) (corr ind : sample -> sample -> bool).
  (** [mlcoef Y xi xjs]: the coefficients found by L-BFGS (rcd.py 216-219) *)
  Variable mlcoef : (nat -> sample) -> nat -> list nat -> nat -> Qc.
  Variable X : nat -> sample.

  (** rcd.py 138-143 _get_resid_and_coef: the residual y - predict *)
  Definition ols_resid (Y : nat -> sample) (i : nat) (ps : list nat) : sample :=
    let c := ols Y ps (Y i) in
    let c0 := icpt Y ps (Y i) in
    fun r => (Y i r - (sumf ps (fun p => c p * Y p r) + c0))%Qc.
  (** 145-152 _get_residual_matrix; also 318-330 and 345-350, which regress on a set of variables if it is not empty.
      The columns outside U, zero in the code, are never read. *)
  Definition resid_given (H : list nat) (i : nat) : sample :=
    match H with [] => X i | _ => ols_resid X i H end.
  (** 221-224: the residual with the coefficients of MLHSICR (no intercept) *)
  Definition ml_resid (Y : nat -> sample) (i : nat) (ps : list nat) : sample :=
    let c := mlcoef Y i ps in
    fun r => fold_left (fun v p => (v - c p * Y p r)%Qc) ps (Y i r).

  (** 154-159, 161-163, 232-238 and 245-251, 329, 364: the tests *)
  Definition d_nongauss (H : list nat) (j : nat) : bool := shapiro (resid_given H j).
  Definition d_corr (H : list nat) (i j : nat) : bool := corr (resid_given H i) (resid_given H j).
  Definition d_ols (H : list nat) (i : nat) (xjs : list nat) (j : nat) : bool :=
    ind (ols_resid (resid_given H) i xjs) (resid_given H j).
  Definition d_ml (H : list nat) (i : nat) (xjs : list nat) (j : nat) : bool :=
    ind (ml_resid (resid_given H) i xjs) (resid_given H j).
  Definition d_cor2 (a : nat) (Ha : list nat) (b : nat) (Hb : list nat) : bool :=
    corr (resid_given Ha a) (resid_given Hb b).
  (** fit (104-127) on the [n] columns of [X] *)
  Definition rcd_data_fit (n maxl : nat) (mlhsicr : bool) : result (sets * mat num) :=
    rcd_fit n maxl mlhsicr d_nongauss d_corr d_ols d_ml d_cor2 d_cor2 (fun i ps j => ols X ps (X i) j).
End Data.
