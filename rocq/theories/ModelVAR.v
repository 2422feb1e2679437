(** * Model of lingam/var_lingam.py and lingam/varma_lingam.py. *)
From Coq Require Import List Arith Bool ZArith QArith Qcanon.
From Verif Require Import Prelude Spec ModelPaths.
Import ListNotations.
Open Scope nat_scope.

(** A series with [N] rows (time) and [n] columns (variables); [N], [n] are explicit. *)
Definition series := nat -> nat -> Qc.
Definition vzero : nat -> Qc := fun _ => 0%Qc.
Definition vplus (u v : nat -> Qc) : nat -> Qc := fun i => (u i + v i)%Qc.
Definition zmat : mat Qc := fun _ _ => 0%Qc.

(** ** VARLiNGAM *)

(** var_lingam.py:346-349, accumulating [np.dot(M_taus[tau-1], X[:, t-tau])]. *)
Definition ar_sum (n : nat) (Ms : list (mat Qc)) (X : series) (t : nat) : nat -> Qc :=
  fold_left (fun est tau => vplus est (mvec n (nth (tau - 1) Ms zmat) (X (t - tau))))
            (seq 1 (length Ms)) vzero.
(** var_lingam.py:334-353 [_calc_residuals] with lags = len(M_taus); row [r] of the result is
    time [r + lags]. *)
Definition var_raw (n : nat) (Ms : list (mat Qc)) (X : series) (t : nat) : nat -> Qc :=
  if t <? length Ms then vzero                                              (* 341-343 *)
  else fun i => (X t i - ar_sum n Ms X t i)%Qc.                             (* 351 *)
Definition var_residuals (n : nat) (Ms : list (mat Qc)) (X : series) : series :=
  fun r => var_raw n Ms X (r + length Ms).                                  (* 353 *)

(** var_lingam.py:355-365 [_calc_b] *)
Definition calc_b (n : nat) (B0 : mat Qc) (Ms : list (mat Qc)) : list (mat Qc) :=
  B0 :: map (fun M => mmul n (msub midn B0) M) Ms.

(** [np.flip(X, axis=0)], [np.roll(Y, -1, axis=0)], [np.roll(X, p, axis=0)] on [N] rows. *)
Definition np_flip (N : nat) (X : series) : series := fun t => X (N - 1 - t).
Definition np_roll_back (N : nat) (Y : series) : series := fun t => Y ((t + 1) mod N).
Definition np_roll (N p : nat) (X : series) : series := fun t => X ((t + (N - p mod N)) mod N).

(** var_lingam.py:371-374: [stacked[k]], and the number of rows kept by [: -lags]
    ([: -0] keeps none). *)
Fixpoint stacked (N : nat) (X : series) (k : nat) : series :=
  match k with 0 => np_flip N X | S k' => np_roll_back N (stacked N X k') end.
Definition n_blocks (N lags : nat) : nat := if lags =? 0 then 0 else N - lags.

(** var_lingam.py:377-388: row [j] of the design matrix of variable [i] (ancestors at the same
    time, then the [lags] lagged blocks flattened) and the target value. *)
Definition prune_row (N n lags : nat) (X : series) (anc : list nat) (j : nat) : list Qc :=
  map (fun a => stacked N X 0 j a) anc ++
  flat_map (fun k => map (fun c => stacked N X k j c) (seq 0 n)) (seq 1 lags).
Definition prune_obj (N : nat) (X : series) (i j : nat) : Qc := stacked N X 0 j i.

(** The adaptive lasso on that design: [lasso rows target] = coefficients by position. *)
Definition lasso_fn := list (list Qc) -> list Qc -> nat -> Qc.

(** var_lingam.py:390-400, writing the coefficients of variable [i] into the matrices.
    [coef[a:a+n]] is shorter than [n] when the matrix has no lag block: ValueError. *)
Definition write_b0 (i : nat) (anc : list nat) (coef : nat -> Qc) (B : mat Qc) : mat Qc :=
  fun r c => if r =? i then match index_of c anc with Some p => coef p | None => B r c end else B r c.
Definition write_btau (n i no tau : nat) (coef : nat -> Qc) (B : mat Qc) : mat Qc :=
  fun r c => if (r =? i) && (c <? n) then coef (no + n * (tau - 1) + c) else B r c.
Fixpoint write_taus (n i no tau lags : nat) (coef : nat -> Qc) (Bs : list (mat Qc)) : result (list (mat Qc)) :=
  match Bs with
  | [] => Ok []
  | B :: r =>
      if lags <? tau then Err ValueError
      else let* r' := write_taus n i no (S tau) lags coef r in
           Ok (write_btau n i no tau coef B :: r')
  end.
Definition prune_var (lasso : lasso_fn) (N n lags : nat) (X : series) (order : list nat)
    (Bs : list (mat Qc)) (i : nat) : result (list (mat Qc)) :=
  match index_of i order with
  | None => Err ValueError                                                   (* 377 *)
  | Some no =>
      let anc := firstn no order in
      let rows := map (prune_row N n lags X anc) (seq 0 (n_blocks N lags)) in
      let obj := map (prune_obj N X i) (seq 0 (n_blocks N lags)) in
      let coef := lasso rows obj in
      match Bs with
      | [] => Err IndexError
      | B0 :: Bt => let* Bt' := write_taus n i no 1 lags coef Bt in Ok (write_b0 i anc coef B0 :: Bt')
      end
  end.
Fixpoint prune_vars lasso N n lags X order (Bs : list (mat Qc)) (is : list nat) : result (list (mat Qc)) :=
  match is with
  | [] => Ok Bs
  | i :: r => let* Bs' := prune_var lasso N n lags X order Bs i in
              prune_vars lasso N n lags X order Bs' r
  end.
(** var_lingam.py:367-402 [_pruning]; [lags] is [self._lags] at the time of the call. *)
Definition var_pruning lasso N n lags X order (Bs : list (mat Qc)) : result (list (mat Qc)) :=
  prune_vars lasso N n lags X order Bs (seq 0 n).

(** The estimator object: [_ar_coefs], [_lags] and the last residuals. *)
Record var_obj := { vo_ar : option (list (mat Qc)); vo_lags : nat; vo_resid : series; vo_rows : nat }.

Section VarFit.
  (** [est N X lags]: the VAR fit (313-332): coefficients and residual series (rows: N minus the
      number of coefficients); the selected lag order is the number of coefficients.
      [lingam rows R]: the LiNGAM model fitted to the residuals: order and B0. *)
  Variable est : nat -> series -> nat -> list (mat Qc) * series.
  Variable lingam : nat -> series -> list nat * mat Qc.
  Variable lasso : lasso_fn.
  Variable n : nat.
  Variable prune : bool.

  (** var_lingam.py:67-115 [fit]: new object state, order, matrices. *)
  Definition var_fit (o : var_obj) (N : nat) (X : series)
    : result (var_obj * (list nat * list (mat Qc))) :=
    let '(Ms, R) := match vo_ar o with
                    | None => est N X (vo_lags o)                            (* 94-95 *)
                    | Some Ms => (Ms, var_residuals n Ms X)                  (* 96-98 *)
                    end in
    let '(order, B0) := lingam (N - length Ms) R in
    let Bs := calc_b n B0 Ms in
    let* Bs' := if prune then var_pruning lasso N n (vo_lags o) X order Bs else Ok Bs in (* 105-106 *)
    Ok ({| vo_ar := Some Ms; vo_lags := length Ms; vo_resid := R; vo_rows := N - length Ms |},
        (order, Bs')).

  (** var_lingam.py:157-168: the first [m] rows of one resampled series of [N] rows; [sampled j]
      is the residual drawn for time [j].  The row [j-t-1] is counted from the end when negative
      (an index below [-N] is outside the model). *)
  Fixpoint resampled (N : nat) (Ms : list (mat Qc)) (lags : nat) (sampled : series) (m : nat) : series :=
    match m with
    | 0 => fun _ _ => 0%Qc
    | S j =>
        let prev := resampled N Ms lags sampled j in
        let row := if j <? lags then sampled j
                   else vplus (fold_left (fun acc t =>
                                 vplus acc (mvec n (nth t Ms zmat)
                                   (prev (if t <? j then j - t - 1 else N + j - t - 1))))
                                 (seq 0 (length Ms)) vzero)
                              (sampled j) in
        fun t => if t =? j then row else prev t
    end.

  (** var_lingam.py:154-175, the loop over the samples: each refit starts from the stored
      [ar0], [lags0]; residuals are drawn (155, with replacement: row [d j] for time [j]) from the
      object's current [_residuals].  Result: the resampled series and the fitted matrices of each
      iteration. *)
  Fixpoint boot_loop (N : nat) (Ms : list (mat Qc)) (ar0 : option (list (mat Qc))) (lags0 : nat)
      (o : var_obj) (draws : list (nat -> nat)) : result (list (series * list (mat Qc))) :=
    match draws with
    | [] => Ok []
    | d :: ds =>
        let Xs := resampled N Ms lags0 (fun j => vo_resid o (d j)) N in
        let* (o', (_, Bs)) := var_fit {| vo_ar := ar0; vo_lags := lags0; vo_resid := vo_resid o; vo_rows := vo_rows o |} N Xs in
        let* rest := boot_loop N Ms ar0 lags0 o' ds in
        Ok ((Xs, Bs) :: rest)
    end.
  (** var_lingam.py:117-194 [bootstrap] (adjacency matrices only). *)
  Definition var_bootstrap (o : var_obj) (N : nat) (X : series) (draws : list (nat -> nat))
    : result (list (series * list (mat Qc))) :=
    let* (o1, _) := var_fit o N X in                                         (* 145 *)
    match vo_ar o1 with
    | None => Err TypeError
    | Some Ms => boot_loop N Ms (vo_ar o) (vo_lags o) o1 draws
    end.
End VarFit.

(** var_lingam.py:276-287 / varma_lingam.py:321-332: the blocks side by side, padded with zero
    rows to a square matrix. *)
Definition padded (n : nat) (Bs : list (mat Qc)) : mat num :=
  fun r c => Some (if r <? n then nth (c / n) Bs zmat r (c mod n) else 0%Qc).
(** var_lingam.py:250-287 [estimate_total_effect2] (warnings not modelled). *)
Definition var_effect2 (n : nat) (Bs : list (mat Qc)) (from to_ lag : nat) : result num :=
  calculate_total_effect (n * length Bs) (padded n Bs) (from + n * lag) to_ None.

(** var_lingam.py:502-512 and varma_lingam.py:572-581: the unrolled matrix; [am] has [n] rows and
    [n * (k+1)] columns. *)
Definition write_block (n row col : nat) (src : mat num) (lag : nat) (E : mat num) : mat num :=
  fun r c => if (row <=? r) && (r <? row + n) && (col <=? c) && (c <? col + n)
             then src (r - row) (lag + (c - col)) else E r c.
Definition expansion (n k : nat) (am : mat num) : mat num :=
  fold_left (fun E i =>
    fold_left (fun E j => write_block n (n * i) (n * j) am (n * j - n * i) E) (seq i (k + 1 - i)) E)
    (seq 0 (k + 1)) (fun _ _ => Some 0%Qc).
(** var_lingam.py:492-518: the path search of one resample. *)
Definition var_paths (n k : nat) (am : mat num) (from to_ from_lag to_lag : nat) (min_ce : Qc)
  : result (list (list nat) * list num) :=
  if from_lag <? to_lag then Err ValueError
  else if (to_lag =? from_lag) && (to_ =? from) then Err ValueError
  else find_all_paths (n * (k + 1)) (expansion n k am) (n * from_lag + from) (n * to_lag + to_) min_ce.

(** ** VARMALiNGAM *)

(** varma_lingam.py:387-412 [_calc_residuals]; [noise t i]: the random initial values (397).
    [eps m]: the first [m] rows. *)
Fixpoint eps (n : nat) (AR MA : list (mat Qc)) (X noise : series) (m : nat) : series :=
  match m with
  | 0 => fun _ _ => 0%Qc
  | S t =>
      let prev := eps n AR MA X noise t in
      let row :=
        if t <? Nat.max (length AR) (length MA) then noise t
        else let ar := fold_left (fun a i => vplus a (mvec n (nth i AR zmat) (X (t - i - 1)))) (seq 0 (length AR)) vzero in
             let ma := fold_left (fun a j => vplus a (mvec n (nth j MA zmat) (prev (t - j - 1)))) (seq 0 (length MA)) vzero in
             fun i => (X t i - (ar i + ma i))%Qc in
      fun s => if s =? t then row else prev s
  end.
Definition varma_residuals (n : nat) AR MA X noise (N : nat) : series :=
  fun r => eps n AR MA X noise N (r + Nat.max (length AR) (length MA)).

(** varma_lingam.py:414-429 [_calc_psi_and_omega]: np.dot's third argument is the output array,
    so the inverse only provides storage.  [order] may differ from the number of matrices. *)
Fixpoint take_coefs (k : nat) (l : list (mat Qc)) : result (list (mat Qc)) :=
  match k, l with
  | 0, _ => Ok []
  | S k', x :: r => let* r' := take_coefs k' r in Ok (x :: r')
  | S _, [] => Err IndexError
  end.
Definition psi_omega (n : nat) (psi0 : mat Qc) (phis thetas : list (mat Qc)) (p q : nat)
  : result (list (mat Qc) * list (mat Qc)) :=
  let* ph := take_coefs p phis in
  let* th := take_coefs q thetas in
  Ok (psi0 :: map (fun M => mmul n (msub midn psi0) M) ph,
      map (fun M => mmul n (msub midn psi0) M) th).

(** varma_lingam.py:436-446 / 251-263: X joined with its rolled copies. *)
Definition joined_x (N n : nat) (X : series) : nat -> nat -> Qc :=
  fun t c => np_roll N (c / n) X t (c mod n).
(** [X_joined[:, a:b] = Y] with [rows] rows into [N]: equal, or 1 (broadcast). *)
Definition fits_rows (rows N : nat) : bool := (rows =? N) || (rows =? 1).
(** varma_lingam.py:441-446: joining the rolled residuals. *)
Definition join_rows_ok (N rows q : nat) : result unit :=
  if (q =? 0) || fits_rows rows N then Ok tt else Err ValueError.
(** varma_lingam.py:103-124 [fit] with both coefficient arrays given: shape behaviour only.
    Residuals have N - max(p,q) rows. *)
Definition varma_fit_given (N p q order_p order_q : nat) (prune : bool) : result unit :=
  if (p <? order_p) || (q <? order_q) then Err IndexError                    (* 417, 424 *)
  else if prune then join_rows_ok N (N - Nat.max p q) order_q else Ok tt.

(** varma_lingam.py:293-332 [estimate_total_effect2]: any non-zero lag adds [n] once (327). *)
Definition varma_effect2 (n : nat) (psis : list (mat Qc)) (from to_ lag : nat) : result num :=
  calculate_total_effect (n * length psis) (padded n psis)
    (if lag =? 0 then from else from + n) to_ None.
