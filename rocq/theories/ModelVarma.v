(** * The VARMALiNGAM object: fit, order search, pruning and bootstrap (lingam/varma_lingam.py) *)
From Coq Require Import List Arith Bool ZArith QArith Qcanon.
From Verif Require Import Prelude Spec ModelVAR.
Import ListNotations.
Open Scope nat_scope.

(** What an object remembers: _order, whether _criterion is one of 'aic', 'bic', 'hqic', _ar_coefs, _ma_coefs, and _residuals with
    their number of rows. *)
Record varma_obj := { wo_order : nat * nat; wo_criterion : bool; wo_ar : option (list (mat Qc)); wo_ma : option (list (mat Qc)); wo_rows : nat; wo_resid : series }.

Section Varma.
  Variable n : nat.                                       (* features *)
  Variable prune : bool.
  (** statsmodels' VARMAX(X, order, trend="c").fit on N rows: the AR matrices, the MA matrices and the residuals (N rows);
      [value N X o]: the information criterion of that fit (None: NaN or +inf; -inf is outside the model). *)
  Variable varmax : nat -> series -> nat * nat -> list (mat Qc) * list (mat Qc) * series.
  Variable value : nat -> series -> nat * nat -> num.
  (** the model fitted to the residuals (118-119): order and psi_0 *)
  Variable lingam : nat -> series -> list nat * mat Qc.
  (** [lasso N Z predictors target]: predict_adaptive_lasso on the joined matrix, by position in [predictors] (455) *)
  Variable lasso : nat -> (nat -> nat -> Qc) -> list nat -> nat -> nat -> Qc.

  (** 364-369: the orders tried *)
  Definition orders (o : nat * nat) : list (nat * nat) :=
    filter (fun pq => negb ((fst pq =? 0) && (snd pq =? 0))) (flat_map (fun p => map (fun q => (p, q)) (seq 0 (snd o + 1))) (seq 0 (fst o + 1))).
  (** 371-377: the first order with the smallest criterion *)
  Definition search_step (N : nat) (X : series) (best : option (Qc * (nat * nat))) (o : nat * nat) : option (Qc * (nat * nat)) :=
    match value N X o with
    | None => best
    | Some v => match best with
                | None => Some (v, o)
                | Some (w, _) => if qltb v w then Some (v, o) else best
                end
    end.
  Definition search_order (N : nat) (X : series) (o : nat * nat) : option (Qc * (nat * nat)) := fold_left (search_step N X) (orders o) None.
  (** A coefficient array of statsmodels; None when there is no such term. *)
  Definition present (l : list (mat Qc)) : option (list (mat Qc)) := match l with [] => None | _ => Some l end.
  (** 358-385 [_estimate_varma_coefs]; the attribute access on None raises AttributeError *)
  Definition estimate (criterion : bool) (o : nat * nat) (N : nat) (X : series) : result (option (list (mat Qc)) * option (list (mat Qc)) * (nat * nat) * series) :=
    let* o' := (if criterion then match search_order N X o with None => Err AttributeError | Some (_, o') => Ok o' end else Ok o) in
    let '(ar, ma, R) := varmax N X o' in Ok (present ar, present ma, o', R).

  (** 431-446: X, its rolled copies and the rolled residuals (441-446: [ee] must have N rows, or one) *)
  Definition joined (N : nat) (X : series) (p rows : nat) (ee : series) (t c : nat) : Qc :=
    if c <? n * (1 + p) then np_roll N (c / n) X t (c mod n)
    else let c' := c - n * (1 + p) in if rows =? N then np_roll N (c' / n + 1) ee t (c' mod n) else ee 0 (c' mod n).
  (** 450-456: one target; [after] are the variables from the target's position on *)
  Definition lasso_predictors (total : nat) (after : list nat) : list nat := filter (fun j => negb (memb j after)) (seq 0 total).
  Definition prune_target (N total : nat) (Z : nat -> nat -> Qc) (order : list nat) (M : mat Qc) (i : nat) : mat Qc :=
    let target := nth i order 0 in
    let ps := lasso_predictors total (skipn i order) in
    let coef := lasso N Z ps target in
    fun r c => if r =? target then match index_of c ps with Some k => coef k | None => M r c end else M r c.
  (** 431-470 [_pruning] *)
  Definition varma_pruning (N : nat) (X : series) (rows : nat) (ee : series) (pq : nat * nat) (order : list nat) : result (list (mat Qc) * list (mat Qc)) :=
    let (p, q) := pq in
    let* _ := join_rows_ok N rows q in
    let total := n * (1 + p + q) in
    let M := fold_left (prune_target N total (joined N X p rows ee) order) (seq 0 (length order)) zmat in
    Ok (map (fun k => (fun r c => M r (n * k + c)) : mat Qc) (seq 0 (1 + p)), map (fun k => (fun r c => M r (n * (1 + p) + n * k + c)) : mat Qc) (seq 0 q)).

  (** 79-138 [fit]: the new object, the causal order, psi and omega; [noise]: the random initial values of _calc_residuals (397) *)
  Definition varma_fit (noise : series) (w : varma_obj) (N : nat) (X : series) : result (varma_obj * (list nat * (list (mat Qc) * list (mat Qc)))) :=
    let* (ar, ma, o, rows, R) :=
      match wo_ar w, wo_ma w with
      | Some A, Some M => Ok (Some A, Some M, wo_order w, N - Nat.max (length A) (length M), varma_residuals n A M X noise N)     (* 113-116 *)
      | _, _ => let* (ar, ma, o, R) := estimate (wo_criterion w) (wo_order w) N X in Ok (ar, ma, o, N, R)                       (* 110-111 *)
      end in
    let '(order, psi0) := lingam rows R in
    let coefs l := match l with Some l => l | None => [] end in
    let* po := psi_omega n psi0 (coefs ar) (coefs ma) (fst o) (snd o) in                                                          (* 121-123 *)
    let* po := (if prune then varma_pruning N X rows (fun t => mvec n (msub midn psi0) (R t)) o order else Ok po) in              (* 125-130 *)
    Ok ({| wo_order := o; wo_criterion := wo_criterion w; wo_ar := ar; wo_ma := ma; wo_rows := rows; wo_resid := R |}, (order, po)).

  (** 180-194: the first [m] rows of a resampled series; [e j]: the residual drawn for time j *)
  Fixpoint varma_resampled (AR MA : list (mat Qc)) (start : nat) (e : series) (m : nat) : series :=
    match m with
    | 0 => fun _ _ => 0%Qc
    | S j =>
        let prev := varma_resampled AR MA start e j in
        let row := if j <? start then e j
                   else let ar := fold_left (fun a t => vplus a (mvec n (nth t AR zmat) (prev (j - t - 1)))) (seq 0 (length AR)) vzero in
                        let ma := fold_left (fun a t => vplus a (mvec n (nth t MA zmat) (e (j - t - 1)))) (seq 0 (length MA)) vzero in
                        vplus (vplus ar (e j)) ma in
        fun s => if s =? j then row else prev s
    end.
  (** 175-204: the loop over the samples; [restore w]: the object with the stored coefficients (197-198).  [draws]: for each sample, the row
      of the object's residuals drawn for each time, and the initial values of a refit. *)
  Fixpoint varma_boot_loop (AR MA : option (list (mat Qc))) (ar0 ma0 : option (list (mat Qc))) (pq : nat * nat) (w : varma_obj) (N : nat) (draws : list ((nat -> nat) * series))
    : result (varma_obj * list (series * (list (mat Qc) * list (mat Qc)))) :=
    match draws with
    | [] => Ok (w, [])
    | (d, noise) :: ds =>
        let start := Nat.max (fst pq) (snd pq) in
        let* Xs := (if N <=? start then Ok (varma_resampled [] [] start (fun j => wo_resid w (d j)) N)
                    else match AR, MA with
                         | Some A, Some M => Ok (varma_resampled A M start (fun j => wo_resid w (d j)) N)
                         | _, _ => Err TypeError                                                            (* 187, 191: enumerate(None) *)
                         end) in
        let* (w', (_, po)) := varma_fit noise {| wo_order := wo_order w; wo_criterion := wo_criterion w; wo_ar := ar0; wo_ma := ma0; wo_rows := wo_rows w; wo_resid := wo_resid w |} N Xs in
        let* (w'', rest) := varma_boot_loop AR MA ar0 ma0 pq w' N ds in
        Ok (w'', (Xs, po) :: rest)
    end.
  (** 140-222 [bootstrap] (matrices only): the object afterwards and, per sample, the resampled series and the matrices *)
  Definition varma_bootstrap (noise : series) (w : varma_obj) (N : nat) (X : series) (draws : list ((nat -> nat) * series)) : result (varma_obj * list (series * (list (mat Qc) * list (mat Qc)))) :=
    let pq := wo_order w in                                                                                 (* 160 *)
    let w0 := {| wo_order := wo_order w; wo_criterion := false; wo_ar := wo_ar w; wo_ma := wo_ma w; wo_rows := wo_rows w; wo_resid := wo_resid w |} in   (* 167 *)
    let* (w1, _) := varma_fit noise w0 N X in                                                               (* 169 *)
    let* (w2, l) := varma_boot_loop (wo_ar w1) (wo_ma w1) (wo_ar w) (wo_ma w) pq w1 N draws in
    Ok ({| wo_order := wo_order w2; wo_criterion := wo_criterion w; wo_ar := wo_ar w2; wo_ma := wo_ma w2; wo_rows := wo_rows w2; wo_resid := wo_resid w2 |}, l).
End Varma.
