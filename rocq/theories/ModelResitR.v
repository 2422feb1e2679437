(** * RESIT with the HSIC test itself: lingam/resit.py on top of lingam/hsic.py, over the real numbers.

    A block of columns is a matrix [Y s k] (row s, column k).  NaN is [None]: the width of a block whose rows are all
    equal (the median of an empty array) and everything computed from it.  Rounding is not modelled. *)
From Coq Require Import Reals Arith List QArith Qcanon.
From Verif Require Import Prelude LibR ModelKernel ModelMlHsic ModelDirectR ModelResit.
Import ListNotations.
Open Scope R_scope.

(** hsic.py 39-44: the positive squared distances above the diagonal of the rows of a block with m columns *)
Definition block_dists (n m : nat) (Y : rmat) : list R :=
  let G := fun i => rsum m (fun k => Y i k * Y i k) in
  filter positive (flat_map (fun i => map (fun j => if (j <=? i)%nat then 0 else G i + G j - 2 * rsum m (fun k => Y i k * Y j k)) (seq 0 n)) (seq 0 n)).
(** hsic.py 32-44: [get_kernel_width] *)
Definition block_width (n m : nat) (Y : rmat) : option R :=
  option_map (fun q => sqrt (1 / 2 * q)) (rmedian (block_dists (if (100 <? n)%nat then 100%nat else n) m Y)).

Section ResitR.
  (** [gamma_sf n stat mean var]: hsic.py 160-163, the p-value of the approximating gamma distribution (or NaN). *)
  Variable gamma_sf : nat -> R -> R -> R -> option R.
  (** hsic.py 101-165: [hsic_test_gamma] with the median bandwidth, for blocks with m and m' columns.
      The integer divisions by n, n-1, n-2 and n-3 (149, 151) raise for at most three rows. *)
  Definition hsic_test (n m m' : nat) (Y Z : rmat) : result (option R * option R) :=
    if (n <=? 3)%nat then Err ZeroDivisionError
    else match block_width n m Y, block_width n m' Z with
         | Some wy, Some wz =>
             let '(K, Kc) := get_gram_matrix n m Y wy in
             let '(L, Lc) := get_gram_matrix n m' Z wz in
             let stat := hsic_teststat Kc Lc n in
             Ok (Some stat, gamma_sf n stat (null_mean n K L) (null_var n Kc Lc))
         | _, _ => Ok (None, None)
         end.

  (** [reg n rows y]: the prediction learnt by the user's regressor from n rows. *)
  Variable reg : nat -> (nat -> list R) -> (nat -> R) -> list R -> R.
  Variable alpha : R.
  Variable n : nat.
  (** [X j s]: column j, row s *)
  Variable X : nat -> nat -> R.

  (** [X[:, predictors]] as rows and as a matrix *)
  Definition rows_of (predictors : list nat) (s : nat) : list R := map (fun j => X j s) predictors.
  Definition block (predictors : list nat) : rmat := fun s k => X (nth k predictors 0%nat) s.
  (** resit.py 104-105, 130-131 *)
  Definition residual_col (predictors : list nat) (k : nat) (s : nat) : R :=
    X k s - reg n (rows_of predictors) (X k) (rows_of predictors s).
  (** resit.py 107, 133 *)
  Definition residual_test (predictors : list nat) (k : nat) : result (option R * option R) :=
    hsic_test n 1 (length predictors) (fun s _ => residual_col predictors k s) (block predictors).
  (** resit.py 101-109: the statistics of the remaining variables [U] *)
  Definition order_stats (U : list nat) : result (list (option R)) :=
    traverse (fun k => let* t := residual_test (remove_nat k U) k in Ok (fst t)) U.
  (** resit.py 94-115, one iteration; state (S, pa, pi) *)
  Definition order_stepR (st : list nat * dict * list nat) : result (list nat * dict * list nat) :=
    let '(U, pa, pi) := st in
    match U with
    | [k] => Ok (U, upd pa k (Some []), k :: pi)                               (* 96-99 *)
    | _ =>
        let* stats := order_stats U in
        match argmin stats with                                                (* 111 *)
        | None => Err ValueError
        | Some i =>
            match nth_error U i with
            | None => Err IndexError
            | Some k =>
                let U' := remove_nat k U in                                    (* 112-114 *)
                Ok (U', upd pa k (Some U'), k :: pi)
            end
        end
    end.
  Fixpoint order_loopR (m : nat) (st : list nat * dict * list nat) : result (list nat * dict * list nat) :=
    match m with
    | O => Ok st
    | S m' => let* st' := order_stepR st in order_loopR m' st'
    end.
  (** resit.py 132-135.  The test raises only for at most three rows; then the ordering has raised before. *)
  Definition acceptsR (k : nat) (predictors : list nat) : bool :=
    match residual_test predictors k with
    | Ok (_, Some p) => Rltb alpha p
    | _ => false
    end.
  (** resit.py 56-88: [fit] on p columns: (causal_order_, adjacency_matrix_) *)
  Definition resit_R (p : nat) : result (list nat * mat Qc) :=
    let* (_, pa, pi) := order_loopR p (seq 0 p, no_keys, []) in
    let* pa' := remove_edges acceptsR (tl pi) pa in
    Ok (pi, resit_matrix pa').
End ResitR.
