(** * Model of lingam/bottom_up_parce_lingam.py (BottomUpParceLiNGAM). *)
From Coq Require Import List Arith Bool QArith Qcanon.
From Verif Require Import Prelude ModelDirect.
Import ListNotations.
Open Scope nat_scope.

(** Floats that may be infinite or NaN (only +inf occurs). *)
Inductive ext := Fin (q : Qc) | PInf | NaN.
Definition ext_of (x : num) : ext := match x with Some q => Fin q | None => NaN end.
(** [a < b]; comparisons with NaN are false. *)
Definition ext_lt (a b : ext) : bool :=
  match a, b with Fin x, Fin y => qltb x y | Fin _, PInf => true | _, _ => false end.
(** [a >= b] *)
Definition ext_ge (a b : ext) : bool :=
  match a, b with
  | NaN, _ | _, NaN => false
  | PInf, _ => true
  | Fin _, PInf => false
  | Fin x, Fin y => qleb y x
  end.
Definition ext_plus (a b : ext) : ext :=
  match a, b with
  | NaN, _ | _, NaN => NaN
  | PInf, _ | _, PInf => PInf
  | Fin x, Fin y => Fin (x + y)%Qc
  end.

(** [np.setdiff1d(a, b)] for an ascending duplicate-free [a]. *)
Definition setdiff (a b : list nat) : list nat := filter (fun x => negb (memb x b)) a.

(** [xs[key(xs) != m]] with numpy broadcasting: one-element [m] is compared with every row, an
    [m] as long as [xs] position by position; other lengths cannot be broadcast (ValueError), or
    give a mask of the wrong length when [xs] has one row (IndexError).
    (numpy before 1.25 returned a scalar True with a DeprecationWarning instead.) *)
Definition drop_ne {A} (key : A -> nat) (xs : list A) (m : list nat) : result (list A) :=
  match m with
  | [v] => Ok (filter (fun x => negb (key x =? v)) xs)
  | _ => if length m =? length xs
         then Ok (map fst (filter (fun p => negb (key (fst p) =? snd p)) (combine xs m)))
         else Err (if length xs =? 1 then IndexError else ValueError)
  end.

(** An entry of causal_order_: a variable, or the list of variables of unknown order. *)
Inductive item := Single (v : nat) | Block (l : list nat).
(** 331-347 [_flatten] *)
Definition flatten (order : list item) : list nat :=
  flat_map (fun it => match it with Single v => [v] | Block l => l end) order.

Inductive indep := Hsic | Fcorr.

Section Parce.
  (** [hsic2 target predictors i] = (statistic, p-value) of [hsic_test_gamma] between X_i and the
      residual of X_target on X_predictors; [fcorr] likewise the F-correlation (288-302, 309, 313,
      328-330): arbitrary values. [m2log p] = -2 log p; [sf s df] = 1 - chi2.cdf(s, df).
      [thr] = alpha/(n-1) (line 125), [ind_corr] the F-correlation threshold. *)
  Variable hsic2 : nat -> list nat -> nat -> num * num.
  Variable fcorr : nat -> list nat -> nat -> num.
  Variable m2log : Qc -> Qc.
  Variable sf : ext -> nat -> num.
  Variables thr ind_corr : Qc.
  Variable mode : indep.

  (** 311-317: the sum of Fisher's method, left as soon as it exceeds [mx]. *)
  Fixpoint fisher_loop (target : nat) (preds : list nat) (mx : ext) (s : ext) (is : list nat) : ext :=
    match is with
    | [] => s
    | i :: r =>
        let s' := ext_plus s (match snd (hsic2 target preds i) with
                              | None => NaN
                              | Some p => if qeqb p 0 then PInf else Fin (m2log p)
                              end) in
        if ext_lt mx s' then s' else fisher_loop target preds mx s' r
    end.
  (** 304-320 [_fisher_hsic_test]: (p, statistic). *)
  Definition fisher_hsic_test (target : nat) (preds : list nat) (mx : ext) : ext * ext :=
    match preds with
    | [i] => (ext_of (snd (hsic2 target preds i)), ext_of (fst (hsic2 target preds i)))
    | _ => let s := fisher_loop target preds mx (Fin 0) preds in
           (ext_of (sf s (2 * length preds)), s)
    end.
  (** 322-336 [_f_correlation] *)
  Definition f_correlation (target : nat) (preds : list nat) : ext :=
    match preds with
    | [i] => ext_of (fcorr target preds i)
    | _ => fold_left (fun mx i => let c := ext_of (fcorr target preds i) in
                                  if ext_lt mx c then c else mx) preds (Fin 0)
    end.

  (** 245-272, the loop of [_find_exo_vec]; state (exo_vec, eval, max_p_stat). *)
  Definition exo_step (Uc : list nat) (st : list nat * ext * ext) (j : nat) : list nat * ext * ext :=
    let '(exo, ev, mx) := st in
    let xi := setdiff Uc [j] in
    match mode with
    | Hsic => let '(p, s) := fisher_hsic_test j xi mx in
              if ext_lt s mx then (xi, p, s) else st
    | Fcorr => let c := f_correlation j xi in
               if ext_lt c ev then (xi, c, mx) else st
    end.
  (** 227-276 [_find_exo_vec]: (m, eval). *)
  Definition find_exo_vec (Uc U : list nat) : list nat * ext :=
    match Uc with
    | [c] => let preds := setdiff U [c] in
             ([c], match mode with
                   | Hsic => fst (fisher_hsic_test c preds PInf)
                   | Fcorr => f_correlation c preds
                   end)
    | _ => let '(exo, ev, _) := fold_left (exo_step Uc) Uc ([], PInf, PInf) in
           (setdiff Uc exo, ev)
    end.
  (** 278-286 [_is_reject] *)
  Definition is_reject (ev : ext) : bool :=
    match mode with
    | Hsic => ext_lt ev (Fin thr)
    | Fcorr => ext_ge ev (Fin ind_corr)
    end.

  (** 175-186 [_search_candidate]; [po = None] when there is no prior knowledge. *)
  Definition parce_candidates (po : option (list (nat * nat))) (U : list nat) : list nat :=
    match po with
    | None => U
    | Some [] => U
    | Some l => filter (fun i => negb (memb i (map fst l))) U
    end.

  (** 188-225 [_search_causal_order]: the final K_bttm. *)
  Fixpoint search_order (fuel : nat) (po : option (list (nat * nat))) (U K : list nat) : result (list nat) :=
    match fuel with
    | 0 => Err OutOfFuel
    | S fuel' =>
        let Uc := parce_candidates po U in
        let '(m, ev) := find_exo_vec Uc U in
        if is_reject ev then Ok K                                               (* 222-223 *)
        else
          let K' := m ++ K in                                                   (* 205 *)
          let* U' := drop_ne (fun i => i) U m in                                (* 209 *)
          let* po' := match po with                                             (* 210-213 *)
                      | None => Ok None
                      | Some l => let* l' := drop_ne snd l m in Ok (Some l')
                      end in
          if length U' <=? 1 then Ok (U' ++ K')                                 (* 216-219 *)
          else search_order fuel' po' U' K'
    end.

  (** 349-394 [_estimate_adjacency_matrix]; a block can only be the first entry, so every
      target is a single variable. *)
  Variable lasso : list nat -> nat -> nat -> num.
  Fixpoint parce_rows (pk : option (mat num)) (before : list item) (rest : list item) (B : mat num) : mat num :=
    match rest with
    | [] => B
    | it :: rest' =>
        let B' := match before, it with
                  | [], _ | _, Block _ => B
                  | _, Single t => write_row lasso t (predictors_of pk t (flatten before)) B
                  end in
        parce_rows pk (before ++ [it]) rest' B'
    end.
  (** 384-391 *)
  Definition nan_pair (B : mat num) (xi xj : nat) : mat num := upd2 (upd2 B xi xj None) xj xi None.
  Fixpoint nan_block (l : list nat) (B : mat num) : mat num :=
    match l with
    | [] => B
    | xi :: r => nan_block r (fold_left (fun B xj => nan_pair B xi xj) r B)
    end.
  Definition parce_adjacency (pk : option (mat num)) (order : list item) : mat num :=
    fold_left (fun B it => match it with Single _ => B | Block l => nan_block l B end) order
              (parce_rows pk [] order (fun _ _ => Some 0%Qc)).

  (** 92-142 [fit]: (causal_order_, adjacency_matrix_). *)
  Definition parce_fit (n : nat) (pk : option (mat num)) (pk_shape_ok : bool)
    : result (list item * mat num) :=
    let* po := match pk with
               | None => Ok None
               | Some m => if pk_shape_ok
                           then let* l := extract_partial_orders n m in Ok (Some l)
                           else Err ValueError                                  (* 112-119 *)
               end in
    if n =? 1 then Err ZeroDivisionError                                        (* 125 *)
    else
      let* K := search_order n po (seq 0 n) [] in                               (* 128 *)
      let Ures := setdiff (seq 0 n) K in                                        (* 130 *)
      let order := (if 1 <? length Ures then [Block Ures] else []) ++ map Single K in (* 131-136 *)
      Ok (order, parce_adjacency pk order).
End Parce.

(** The estimator object: the attributes behind causal_order_ and adjacency_matrix_. *)
Record parce_obj := { po_order : option (list item); po_adjacency : option (mat num) }.
(** 106-107 reset [_causal_order] and [_adjacency_matrices] (sic); the attribute read by
    adjacency_matrix_ is [_adjacency_matrix] (510-524) and is only written at line 393.
    The order is written at 138, before the adjacency matrix is estimated; the estimation
    itself is taken not to raise. *)
Definition parce_refit (o : parce_obj) (outcome : result (list item * mat num)) : parce_obj :=
  match outcome with
  | Ok (order, B) => {| po_order := Some order; po_adjacency := Some B |}
  | Err _ => {| po_order := None; po_adjacency := po_adjacency o |}
  end.
