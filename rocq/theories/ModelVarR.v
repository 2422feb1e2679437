(** * VARLiNGAM on data (var_lingam.py), numbers as reals; ar_coefs not given, lingam_model a DirectLiNGAM *)
From Coq Require Import Reals Arith Bool List.
From Verif Require Import Prelude LibR SpecDirectR SpecVarR ModelDirectR.
From Verif Require ModelDirect.
Import ListNotations.
Open Scope R_scope.

Section Var.
  (** ols: VAR(X).fit(maxlags=k, trend="n").coefs; crit: the criterion of that fit (None = NaN);
      lr, lars: LinearRegression and LassoLarsIC as in ModelDirectR, given the number of rows *)
  Context (ols : nat -> nat -> rseries -> nat -> result (list rmat)) (crit : nat -> nat -> rseries -> nat -> option R).
  Context (lr : nat -> list (nat -> R) -> (nat -> R) -> list R) (lars : nat -> list (nat -> R) -> (nat -> R) -> result (list R)).
  Context (logsv : nat -> rmat -> R).

  (** 323-330: for lag in range(1, lags + 1); [best] is (min_value, result), None at the start (infinity, None) *)
  Fixpoint select_lag (N p : nat) (X : rseries) (lags : list nat) (best : option (R * list rmat)) : result (option (R * list rmat)) :=
    match lags with
    | [] => Ok best
    | k :: lags =>
        let* Ms := ols N p X k in
        select_lag N p X lags
          (match crit N p X k, best with
           | Some v, None => Some (v, Ms)
           | Some v, Some (m, _) => if Rltb v m then Some (v, Ms) else best            (* 328 *)
           | None, _ => best
           end)
    end.
  (** 313-332; [searching]: the criterion is one of aic, fpe, hqic, bic *)
  Definition estimate_var_coefs (searching : bool) (N p L : nat) (X : rseries) : result (list rmat) :=
    if searching then
      let* best := select_lag N p X (seq 1 L) None in
      match best with Some (_, Ms) => Ok Ms | None => Err AttributeError end           (* 332: None.coefs *)
    else ols N p X L.                                                                  (* 317-318 *)
  (** 332: result.resid, the columns of the p variables at the times k, ..., N-1 (columns beyond p do not exist: 0) *)
  Definition residuals (p : nat) (Ms : list rmat) (X : rseries) : nat -> nat -> R :=
    fun j s => if (j <? p)%nat then X (length Ms + s)%nat j - predicted p Ms X (length Ms + s) j else 0.
  (** 356-367 *)
  Definition calc_b (p : nat) (B0 : rmat) (Ms : list rmat) : list rmat :=
    B0 :: map (fun M i j => rsum p (fun l => (rid i l - B0 i l) * M l j)) Ms.
  (** 373-376: row r of the blocks is time N-1-r, column c = tau * p + l is variable l, tau steps earlier;
      [: -lags] keeps the first N - lags rows, and none at all if lags = 0 *)
  Definition blocks_rows (N L : nat) : nat := if (L =? 0)%nat then 0%nat else (N - L)%nat.
  Definition blocks_col (N p : nat) (X : rseries) : nat -> nat -> R := fun c r => X (N - 1 - r - c / p)%nat (c mod p)%nat.
  (** 379-380: causal_order.index(i), causal_order[:no] *)
  Fixpoint before (i : nat) (order : list nat) : list nat :=
    match order with [] => [] | x :: order => if (x =? i)%nat then [] else x :: before i order end.
  (** 397-402: B_taus[0][i, ancestors] = coef[:no]; B_taus[j + 1][i, :] = coef[no + p * j : no + p * j + p] *)
  Definition write_lag (p i no : nat) (coef : list R) (j : nat) (B : rmat) : rmat :=
    fun r c => if (r =? i)%nat && (c <? p)%nat then nth (no + p * j + c) coef 0 else B r c.
  Fixpoint write_lags (p i no : nat) (coef : list R) (j : nat) (Bs : list rmat) : list rmat :=
    match Bs with [] => [] | B :: Bs => write_lag p i no coef j B :: write_lags p i no coef (S j) Bs end.
  (** 378-402: the regressors of variable i are its ancestors at the same time and all lagged variables *)
  Definition prune_one (N p L : nat) (X : rseries) (order : list nat) (Bs : list rmat) (i : nat) : result (list rmat) :=
    let anc := before i order in
    let rows := blocks_rows N L in
    if (rows =? 0)%nat then Err ValueError                                             (* 394: nothing to scale *)
    else
      let* coef := adaptive_lasso (lr rows) (lars rows) rows (blocks_col N p X) (anc ++ seq p (p * L)) i in
      match Bs with
      | [] => Err IndexError
      | B0 :: Bt => Ok (write_coefs i anc (firstn (length anc) coef) B0 :: write_lags p i (length anc) coef 0 Bt)
      end.
  Definition prune_all (N p L : nat) (X : rseries) (order : list nat) (Bs : list rmat) : result (list rmat) :=
    fold_left (fun acc i => let* Bs := acc in prune_one N p L X order Bs i) (seq 0 p) (Ok Bs).
  (** 66-115 [fit]: causal_order_ and adjacency_matrices_ *)
  Definition var_fit (ms : ModelDirect.measure) (pk_shape_ok : bool) (mode : ModelDirect.pk_mode) (searching prune : bool) (N p L : nat)
      (X : rseries) : result (list nat * list rmat) :=
    if (N =? 0)%nat || (p =? 0)%nat then Err ValueError                                (* 83: check_array *)
    else
      let* Ms := estimate_var_coefs searching N p L X in                               (* 94 *)
      let n := (N - length Ms)%nat in
      let* KB := fit (lr n) (lars n) logsv ms n p pk_shape_ok mode (residuals p Ms X) in   (* 99-100 *)
      let Bs := calc_b p (snd KB) Ms in                                                (* 102 *)
      if prune then let* Bs := prune_all N p L X (fst KB) Bs in Ok (fst KB, Bs)        (* 104-105 *)
      else Ok (fst KB, Bs).
End Var.
