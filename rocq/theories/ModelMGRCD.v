(** * MultiGroupRCD on data: the tests of lingam/multi_group_rcd.py applied to the residuals of every data set.

    ModelRCD takes the outcome of every test as a function of the variables involved; here these functions are computed
    from the list of data sets as in the code.  The regression, the p-values of the single tests, the minimiser of
    MLHSICR, log and the chi-square distribution remain parameters; the first argument of each is the number of rows. *)
From Coq Require Import List Arith Bool QArith Qcanon.
From Verif Require Import Prelude SpecPop ModelRCD ModelRCDPop.
Import ListNotations.
Open Scope nat_scope.

(** the parameter independence (55-56, 76-77) *)
Inductive indep_kind := Hsic | Fcorr.

Section Groups.
  Variable ols : nat -> (nat -> sample) -> list nat -> sample -> nat -> Qc.
  Variable icpt : nat -> (nat -> sample) -> list nat -> sample -> Qc.
  Variables (pshapiro : nat -> sample -> Qc) (ppearson phsic fcorr : nat -> sample -> sample -> Qc).
  Variable mlcoef : nat -> (nat -> sample) -> nat -> list nat -> nat -> Qc.
  Variables (m2log : Qc -> Qc) (sf : option Qc -> nat -> Qc).
  Variables (cor_alpha ind_alpha shapiro_alpha ind_corr : Qc) (kind : indep_kind).
  (** X_list: number of rows and columns of every data set *)
  Variable Xs : list (nat * (nat -> sample)).

  (** The p-value of Fisher's method over one p-value per data set (360-366, 374-379, 393-402, 558-572, 594-601);
      [_k] is the number of data sets (319). *)
  Definition fisher_p (ps : list Qc) : Qc := sf (fisher_stat m2log ps) (2 * length ps).
  (** 345-352 _get_residual_matrix of one data set *)
  Definition g_resid (D : nat * (nat -> sample)) (H : list nat) (i : nat) : sample :=
    resid_given (ols (fst D)) (icpt (fst D)) (snd D) H i.
  (** 354-369 _is_non_gaussianity, one variable *)
  Definition mg_nongauss_test (ps : list (nat * sample)) : bool :=
    negb (qltb shapiro_alpha (fisher_p (map (fun q => pshapiro (fst q) (snd q)) ps))).
  Definition mg_nongauss (H : list nat) (j : nat) : bool :=
    mg_nongauss_test (map (fun D => (fst D, g_resid D H j)) Xs).
  (** 371-383 _is_correlated, one pair; also the test of 552-574 _is_parent and 583-605 *)
  Definition mg_corr_test (ps : list (nat * sample * sample)) : bool :=
    qltb (fisher_p (map (fun q => ppearson (fst (fst q)) (snd (fst q)) (snd q)) ps)) cor_alpha.
  Definition mg_corr (H : list nat) (i j : nat) : bool :=
    mg_corr_test (map (fun D => (fst D, g_resid D H i, g_resid D H j)) Xs).
  Definition mg_cor2 (a : nat) (Ha : list nat) (b : nat) (Hb : list nat) : bool :=
    mg_corr_test (map (fun D => (fst D, g_resid D Ha a, g_resid D Hb b)) Xs).
  (** 397-416 _is_independent *)
  Definition mg_ind_test (ps : list (nat * sample * sample)) : bool :=
    match kind with
    | Hsic => mg_hsic_independent m2log sf ind_alpha (map (fun q => phsic (fst (fst q)) (snd (fst q)) (snd q)) ps)
    | Fcorr => match mg_fcorr_independent (map (fun q => fcorr (fst (fst q)) (snd (fst q)) (snd q)) ps) ind_corr with
               | Ok b => b | Err _ => false end
    end.
  (** 418-450 _is_independent_of_resid: the two regressions, every data set with its own coefficients *)
  Definition mg_ols (H : list nat) (i : nat) (xjs : list nat) (j : nat) : bool :=
    mg_ind_test (map (fun D => (fst D, ols_resid (ols (fst D)) (icpt (fst D)) (g_resid D H) i xjs, g_resid D H j)) Xs).
  Definition mg_ml (H : list nat) (i : nat) (xjs : list nat) (j : nat) : bool :=
    mg_ind_test (map (fun D => (fst D, ml_resid (mlcoef (fst D)) (g_resid D H) i xjs, g_resid D H j)) Xs).
  (** fit (93-126): the ancestors, parents and confounded pairs are shared, the matrices are estimated one by one.
      312-328 _check_X_list: at least two data sets; equal numbers of features are assumed. *)
  Definition mg_rcd_fit (n maxl : nat) (mlhsicr : bool) : result (sets * list (mat num)) :=
    if maxl =? 0 then Err ValueError
    else if length Xs <? 2 then Err ValueError
    else match rcd_ancestors n maxl mlhsicr mg_nongauss mg_corr mg_ols mg_ml (rcd_fuel n maxl) with
         | inl _ => Err OutOfFuel
         | inr M => let P := rcd_parents n mg_cor2 M in
                    let C := rcd_confounded n mg_cor2 P in
                    Ok (M, map (fun D => rcd_adjacency n (fun i ps j => ols (fst D) (snd D) ps (snd D i) j) P C) Xs)
         end.
End Groups.
