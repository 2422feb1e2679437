(** * Queries on a fitted model: estimate_total_effect and get_error_independence_p_values of
    lingam/rcd.py, lingam/bottom_up_parce_lingam.py, lingam/multi_group_direct_lingam.py,
    lingam/base.py and lingam/var_lingam.py *)
From Coq Require Import List Arith Bool QArith Qcanon.
From Verif Require Import Prelude SpecPop ModelDirect ModelParce ModelPaths ModelTotal.
Import ListNotations.
Open Scope nat_scope.

(** rcd.py 427, bottom_up_parce_lingam.py 441: True in np.isnan(adjacency_matrix[from_index]) *)
Definition row_has_nan (n : nat) (A : mat num) (i : nat) : bool :=
  existsb (fun j => match A i j with None => true | Some _ => false end) (seq 0 n).
(** 435-437 (base.py 83-85): [from_index] and the columns with a non-zero coefficient *)
Definition effect_predictors (n : nat) (A : mat num) (from : nat) : list nat :=
  from :: filter (fun j => match A from j with Some w => qltb 0 (qabs w) | None => false end) (seq 0 n).

(** rcd.py 411-443; [M i j]: x_j is an ancestor of x_i.  Second component: the warning 416-421. *)
Definition rcd_estimate_total_effect (ols : list nat -> nat -> nat -> num) (n : nat) (M : nat -> nat -> bool)
    (A : mat num) (from to_ : nat) : num * bool :=
  (if row_has_nan n A from then None else ols (effect_predictors n A from) to_ from, M from to_).

(** bottom_up_parce_lingam.py 417-430: position of the first item that is or contains [v] *)
Fixpoint item_pos (v : nat) (order : list item) : option nat :=
  match order with
  | [] => None
  | it :: r =>
      if match it with Single w => v =? w | Block l => memb v l end then Some 0
      else option_map S (item_pos v r)
  end.
(** 396-458.  An index that is in no item leaves from_order or to_order unbound
    (UnboundLocalError, here [RuntimeError]). *)
Definition parce_estimate_total_effect (ols : list nat -> nat -> nat -> num) (n : nat) (order : list item)
    (A : mat num) (from to_ : nat) : result (num * bool) :=
  match item_pos from order, item_pos to_ order with
  | Some a, Some b =>
      Ok (if row_has_nan n A from then None else ols (effect_predictors n A from) to_ from, b <? a)
  | _, _ => Err RuntimeError
  end.
(** 460-508: the same with the sum over the directed paths *)
Definition parce_estimate_total_effect2 (n : nat) (order : list item) (A : mat num) (from to_ : nat) : result (num * bool) :=
  match item_pos from order, item_pos to_ order with
  | Some a, Some b =>
      if row_has_nan n A from then Ok (None, b <? a)
      else let* t := calculate_total_effect n A from to_ None in Ok (t, b <? a)
  | _, _ => Err RuntimeError
  end.

(** multi_group_direct_lingam.py 160-204; [gs]: the regression on each data set with its matrix (zip, 191) *)
Definition mgd_estimate_total_effect (n : nat) (K : list nat) (gs : list ((list nat -> nat -> nat -> num) * mat num))
    (from to_ : nat) : result (list num * bool) :=
  match index_of from K, index_of to_ K with
  | Some a, Some b => Ok (map (fun g => fst g (effect_predictors n (snd g) from) to_ from) gs, b <? a)
  | _, _ => Err ValueError
  end.
(** 206-238 *)
Fixpoint all_results {A} (l : list (result A)) : result (list A) :=
  match l with [] => Ok [] | x :: r => let* a := x in let* s := all_results r in Ok (a :: s) end.
Definition mgd_estimate_total_effect2 (n : nat) (K : list nat) (ams : list (mat num)) (from to_ : nat) : result (list num * bool) :=
  match index_of from K, index_of to_ K with
  | Some a, Some b =>
      let* es := all_results (map (fun A => calculate_total_effect n A from to_ None) ams) in Ok (es, b <? a)
  | _, _ => Err ValueError
  end.
(** 144-150: total effects stored for data set [d] by one bootstrap round *)
Definition mgd_boot_te (n : nat) (K : list nat) (ams : list (mat num)) (d : nat) : result (mat num) :=
  fold_left (fun acc p => let* m := acc in
               let* r := mgd_estimate_total_effect2 n K ams (fst p) (snd p) in
               Ok (if d <? length (fst r) then upd2 m (snd p) (fst p) (nth d (fst r) None) else m))
            (flat_map (fun c => map (fun t => (nth c K 0, t)) (skipn (S c) K)) (seq 0 (length K)))
            (Ok (fun _ _ => Some 0%Qc)).

(** base.py 112 (rcd.py 481): row [r] of column [i] of E = X - (B X^T)^T *)
Definition error_col (n : nat) (A : mat num) (X : nat -> sample) (i r : nat) : num :=
  nsub (Some (X i r)) (nsum (map (fun j => nmul (A i j) (Some (X j r))) (seq 0 n))).
(** var_lingam.py 299: column [i] of E = ((I - B0) nn^T)^T *)
Definition var_error_col (n : nat) (B0 : mat num) (nn : nat -> sample) (i r : nat) : num :=
  nsum (map (fun j => nmul (nsub (Some (if i =? j then 1 else 0)%Qc) (B0 i j)) (Some (nn j r))) (seq 0 n)).
(** rcd.py 482: indices occurring in the positions of NaN entries *)
Definition nan_cols (n : nat) (A : mat num) : list nat :=
  flat_map (fun p => match A (fst p) (snd p) with None => [fst p; snd p] | Some _ => [] end)
           (list_prod (seq 0 n) (seq 0 n)).
(** base.py 93-121; [pv a b]: p-value of the HSIC test of two columns *)
Definition base_p_values (pv : (nat -> num) -> (nat -> num) -> num) (n : nat) (A : mat num) (X : nat -> sample) : mat num :=
  error_independence_p_values (fun i j => pv (error_col n A X i) (error_col n A X j)) n.
(** rcd.py 462-496, bottom_up_parce_lingam.py 510-544 *)
Definition nan_p_values (pv : (nat -> num) -> (nat -> num) -> num) (n : nat) (A : mat num) (X : nat -> sample) : mat num :=
  error_independence_p_values (fun i j => if memb i (nan_cols n A) || memb j (nan_cols n A) then None
                                          else pv (error_col n A X i) (error_col n A X j)) n.
(** var_lingam.py 289-312 *)
Definition var_p_values (pv : (nat -> num) -> (nat -> num) -> num) (n : nat) (B0 : mat num) (nn : nat -> sample) : mat num :=
  error_independence_p_values (fun i j => pv (var_error_col n B0 nn i) (var_error_col n B0 nn j)) n.
