(** * The VARLiNGAM object with its settings, also when calls fail (lingam/var_lingam.py 67-194, 313-332)

    ModelVAR.v has the computations; here the estimation of the coefficients, the LiNGAM model and the pruning may raise, the choice
    of the lag is explicit, and every call returns the object it leaves behind. *)
From Coq Require Import List Arith Bool ZArith QArith Qcanon.
From Verif Require Import Prelude Spec ModelVAR.
Import ListNotations.
Open Scope nat_scope.

(** What an object remembers: whether _criterion is one of 'aic', 'fpe', 'hqic', 'bic'; _lags; _ar_coefs; _residuals with their number of
    rows; the results _causal_order and _adjacency_matrices (both None before a fit). *)
Record var_state := { vs_criterion : bool; vs_lags : nat; vs_ar : option (list (mat Qc)); vs_rows : nat; vs_resid : series;
  vs_result : option (list nat * list (mat Qc)) }.
(** 83-84 *)
Definition no_result (st : var_state) : var_state :=
  {| vs_criterion := vs_criterion st; vs_lags := vs_lags st; vs_ar := vs_ar st; vs_rows := vs_rows st; vs_resid := vs_resid st; vs_result := None |}.
(** 142-143, 190 *)
Definition with_criterion (c : bool) (st : var_state) : var_state :=
  {| vs_criterion := c; vs_lags := vs_lags st; vs_ar := vs_ar st; vs_rows := vs_rows st; vs_resid := vs_resid st; vs_result := vs_result st |}.
(** 170-172 *)
Definition with_settings (ar : option (list (mat Qc))) (lags : nat) (st : var_state) : var_state :=
  {| vs_criterion := vs_criterion st; vs_lags := lags; vs_ar := ar; vs_rows := vs_rows st; vs_resid := vs_resid st; vs_result := vs_result st |}.

Section State.
  Variable n : nat.                                       (* features *)
  Variable prune : bool.
  Variable model_ok : bool.                               (* lingam_model is None or a _BaseLiNGAM (88-92) *)
  (** statsmodels' VAR(X).fit(maxlags=lag, trend="n") on N rows: coefficients and residuals (N - lag rows), or the exception it raises;
      [value N X lag]: the information criterion of that fit (None: NaN or +inf; -inf is outside the model). *)
  Variable var_model : nat -> series -> nat -> result (list (mat Qc) * series).
  Variable value : nat -> series -> nat -> num.
  (** the LiNGAM model fitted to the residuals (100-101): order and B0, or its exception *)
  Variable lingam : nat -> series -> result (list nat * mat Qc).
  Variable lasso : lasso_fn.

  (** 323-330: the first lag with the smallest criterion *)
  Definition lag_step (N : nat) (X : series) (acc : result (option (Qc * (nat * (list (mat Qc) * series))))) (lag : nat) :
      result (option (Qc * (nat * (list (mat Qc) * series)))) :=
    let* best := acc in
    let* fitted := var_model N X lag in
    Ok (match value N X lag with
        | None => best
        | Some v => match best with
                    | None => Some (v, (lag, fitted))
                    | Some (w, _) => if qltb v w then Some (v, (lag, fitted)) else best
                    end
        end).
  (** 313-332 [_estimate_var_coefs]: lag, coefficients and residuals; [result.coefs] of None raises AttributeError *)
  Definition estimate (criterion : bool) (lags N : nat) (X : series) : result (nat * (list (mat Qc) * series)) :=
    if criterion then
      let* best := fold_left (lag_step N X) (seq 1 lags) (Ok None) in
      match best with None => Err AttributeError | Some (_, r) => Ok r end
    else let* fitted := var_model N X lags in Ok (lags, fitted).
  (** 86-113; [valid]: check_array accepts X *)
  Definition attempt (st : var_state) (valid : bool) (N : nat) (X : series) : result var_state :=
    if negb valid then Err ValueError
    else if negb model_ok then Err ValueError
    else
      let* (lags, (Ms, R)) := match vs_ar st with
                              | None => estimate (vs_criterion st) (vs_lags st) N X                      (* 94-95 *)
                              | Some Ms => Ok (length Ms, (Ms, var_residuals n Ms X))                    (* 96-98 *)
                              end in
      let* (order, B0) := lingam (N - lags) R in
      let Bs := calc_b n B0 Ms in
      let* Bs' := if prune then var_pruning lasso N n (vs_lags st) X order Bs else Ok Bs in              (* 105-106 *)
      Ok {| vs_criterion := vs_criterion st; vs_lags := lags; vs_ar := Some Ms; vs_rows := N - lags; vs_resid := R; vs_result := Some (order, Bs') |}.
  (** 67-115 [fit] *)
  Definition vs_fit (st : var_state) (valid : bool) (N : nat) (X : series) : var_state * result unit :=
    match attempt (no_result st) valid N X with
    | Ok st' => (st', Ok tt)
    | Err e => (no_result st, Err e)
    end.
  (** 154-188: each repetition draws row [d j] of the residuals for time j (resample raises when there are none), restores the
      settings stored at the beginning and fits; the total effects of the fitted model are left out, they raise nothing. *)
  Fixpoint vs_repeat (ar0 : option (list (mat Qc))) (lags0 N : nat) (Ms : list (mat Qc)) (st : var_state) (draws : list (nat -> nat)) :
      var_state * result (list (list (mat Qc))) :=
    match draws with
    | [] => (st, Ok [])
    | d :: ds =>
        if vs_rows st =? 0 then (st, Err ValueError)
        else match vs_fit (with_settings ar0 lags0 st) true N (resampled n N Ms lags0 (fun j => vs_resid st (d j)) N) with
             | (st', Err e) => (st', Err e)
             | (st', Ok _) =>
                 let '(st'', r) := vs_repeat ar0 lags0 N Ms st' ds in
                 (st'', let* l := r in Ok (match vs_result st' with Some (_, Bs) => Bs | None => [] end :: l))
             end
    end.
  (** 117-194 [bootstrap]; [draws]: None for a negative n_sampling (np.zeros raises ValueError, 149-151) *)
  Definition vs_bootstrap (st : var_state) (valid : bool) (N : nat) (X : series) (draws : option (list (nat -> nat))) :
      var_state * result (list (list (mat Qc))) :=
    if negb valid then (st, Err ValueError)                                                               (* 133 *)
    else match vs_fit (with_criterion false st) true N X with
         | (st1, Err e) => (st1, Err e)
         | (st1, Ok _) =>
             match draws with
             | None => (st1, Err ValueError)
             | Some ds =>
                 match vs_repeat (vs_ar st) (vs_lags st) N (match vs_ar st1 with Some Ms => Ms | None => [] end) st1 ds with
                 | (st2, Err e) => (st2, Err e)
                 | (st2, Ok l) => (with_criterion (vs_criterion st) st2, Ok l)                            (* 190 *)
                 end
             end
         end.
End State.
