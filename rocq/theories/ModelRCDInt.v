(** * Model of lingam/rcd.py on a table of whole numbers

    check_array (119) keeps the dtype of X, and [Y = np.zeros_like(X)] (149) has it too.  The assignment of the residuals to a
    column of Y (151) therefore converts them to the dtype of X: for a table of integers the decimals are cut off.  Only the
    search for ancestors uses Y; parents, confounded pairs and coefficients are computed with the residuals themselves
    (318-350, 368-408).  The same assignment is in lingam/utils/_rcd.py 132 and lingam/multi_group_rcd.py 351. *)
From Coq Require Import List Arith Bool ZArith QArith Qcanon.
From Verif Require Import Prelude SpecPop ModelRCD ModelRCDPop ModelUtilInt.
Import ListNotations.
Open Scope nat_scope.

Section Data.
  (** as in ModelRCDPop; [int_dtype]: X has an integer dtype *)
  Variable int_dtype : bool.
  Variable ols : (nat -> sample) -> list nat -> sample -> nat -> Qc.
  Variable icpt : (nat -> sample) -> list nat -> sample -> Qc.
  Variables (shapiro : sample -> bool) (corr ind : sample -> sample -> bool).
  Variable mlcoef : (nat -> sample) -> nat -> list nat -> nat -> Qc.
  Variable X : nat -> sample.

  (** 151: Y[:, xj] = residuals *)
  Definition stored (y : sample) : sample := if int_dtype then fun r => qtrunc (y r) else y.
  (** 145-152 _get_residual_matrix *)
  Definition stored_resid (H : list nat) (i : nat) : sample :=
    match H with [] => X i | _ => stored (ols_resid ols icpt X i H) end.
  (** 154-159, 161-163, 232-238, 245-251: the tests of the search for ancestors, on Y *)
  Definition s_nongauss (H : list nat) (j : nat) : bool := shapiro (stored_resid H j).
  Definition s_corr (H : list nat) (i j : nat) : bool := corr (stored_resid H i) (stored_resid H j).
  Definition s_ols (H : list nat) (i : nat) (xjs : list nat) (j : nat) : bool :=
    ind (ols_resid ols icpt (stored_resid H) i xjs) (stored_resid H j).
  Definition s_ml (H : list nat) (i : nat) (xjs : list nat) (j : nat) : bool :=
    ind (ml_resid mlcoef (stored_resid H) i xjs) (stored_resid H j).
  (** 104-127 fit *)
  Definition rcd_data_fit_dtype (n maxl : nat) (mlhsicr : bool) : result (sets * mat num) :=
    rcd_fit n maxl mlhsicr s_nongauss s_corr s_ols s_ml (d_cor2 ols icpt corr X) (d_cor2 ols icpt corr X) (fun i ps j => ols X ps (X i) j).
End Data.
