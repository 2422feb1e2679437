(** * LongitudinalLiNGAM on data (longitudinal_lingam.py), numbers as reals; no prior knowledge *)
From Coq Require Import Reals Arith Bool List.
From Verif Require Import Prelude LibR SpecDirectR SpecLongR ModelDirectR.
From Verif Require ModelDirect.
Import ListNotations.
Open Scope R_scope.

Section Long.
  (** lr, lars: LinearRegression (with intercept) and LassoLarsIC as in ModelDirectR, given the number of rows *)
  Context (lr : nat -> list (nat -> R) -> (nat -> R) -> list R) (lars : nat -> list (nat -> R) -> (nat -> R) -> result (list R)).
  Context (logsv : nat -> rmat -> R).

  (** 413: X = np.vstack(X_t[t - n_lags : t]), its rows *)
  Definition lag_columns (p L : nat) (X : rpanel) (t : nat) : list (nat -> R) :=
    map (fun r => X (t - L + r / p)%nat (r mod p)%nat) (seq 0 (p * L)).
  (** 416-417: row i of reg.coef_ (one regression for every target) *)
  Definition coefs (n p L : nat) (X : rpanel) (t i : nat) : list R := lr n (lag_columns p L X t) (X t i).
  (** 419: np.split(reg.coef_, n_lags, axis=1)[l] *)
  Definition m_tau (n p L : nat) (X : rpanel) (t l : nat) : rmat := fun i j => nth (l * p + j) (coefs n p L X t i) 0.
  (** 420: X_t[t] - reg.coef_ @ X, without the intercept (rows beyond p do not exist: 0) *)
  Definition n_t (n p L : nat) (X : rpanel) (t : nat) : nat -> nat -> R :=
    fun i s => if (i <? p)%nat then X t i s - lin (coefs n p L X t i) (lag_columns p L X t) s else 0.
  (** 435-441: np.dot(np.eye(p) - B_t[t], M_tau[t, l]) *)
  Definition b_tau (p : nat) (B M : rmat) : rmat := fun i j => rsum p (fun k => (rid i k - B i k) * M k j).
  (** 95-112 at the time points ts: causal order, [B(t,t); adjacency_matrices_[t, 1]; ...] and residuals_[t];
      None = everything NaN (99-103, 426) *)
  Definition time_result := option (list nat * list rmat * (nat -> nat -> R)).
  Fixpoint long_times (ms : ModelDirect.measure) (n p L : nat) (X : rpanel) (ts : list nat) : result (list time_result) :=
    match ts with
    | [] => Ok []
    | t :: ts =>
        let* r := (if (t <? L)%nat then Ok None
                   else let* KB := fit (lr n) (lars n) logsv ms n p true ModelDirect.NoPK (n_t n p L X t) in       (* 429-432 *)
                        Ok (Some (fst KB, snd KB :: map (fun l => b_tau p (snd KB) (m_tau n p L X t l)) (seq 0 L), n_t n p L X t))) in
        let* rs := long_times ms n p L X ts in Ok (r :: rs)
    end.
  (** 76-112 [fit] for T data sets of n rows and p columns each *)
  Definition long_fit (ms : ModelDirect.measure) (T n p L : nat) (X : rpanel) : result (list time_result) :=
    if (T <? 2)%nat then Err ValueError                                                (* 79 *)
    else if (n =? 0)%nat || (p =? 0)%nat then Err ValueError                           (* 83: check_array *)
    else if (L =? 0)%nat then Err ValueError                                           (* 413: np.vstack of nothing *)
    else long_times ms n p L X (seq 0 T).
End Long.
