(** * Model of the order searches by repeated removal of zero rows:
    lingam/ica_lingam.py (37-144), lingam/causal_effect.py (37-79) and
    lingam/causal_based_simulator.py (625-662). *)
From Coq Require Import List Arith Lia Bool ZArith QArith Qcanon Permutation Sorted.
From Verif Require Import Prelude ModelDirect.
Import ListNotations.
Open Scope nat_scope.

Definition nabs (x : num) : num := option_map qabs x.

(** [np.delete(l, t)] *)
Fixpoint del_nth {A} (t : nat) (l : list A) : list A :=
  match l, t with
  | [], _ => []
  | _ :: r, 0 => r
  | x :: r, S t' => x :: del_nth t' r
  end.
(** [mask = np.delete(np.arange(len(matrix)), t); matrix[mask][:, mask]]
    (ica_lingam.py:106-107; causal_effect.py:70-71; causal_based_simulator.py:656-657). *)
Definition skip (t i : nat) : nat := if i <? t then i else S i.
Definition del_rc {A} (t : nat) (M : mat A) : mat A := fun i j => M (skip t i) (skip t j).
(** [np.sum(np.abs(matrix), axis=1)[i]] for an m x m matrix *)
Definition row_abs_sum (M : mat num) (m i : nat) : num :=
  nsum (map (fun j => nabs (M i j)) (seq 0 m)).
(** first index of [np.where(test(row sums))[0]] *)
Definition first_row (test : num -> bool) (M : mat num) (m : nat) : option nat :=
  find (fun i => test (row_abs_sum M m i)) (seq 0 m).

(** The loop: [m] = len(matrix), [orig] = original_index, [order] = causal_order.
    Stops when the matrix is empty or no row passes the test. *)
Fixpoint peel (test : num -> bool) (m : nat) (M : mat num) (orig order : list nat) : list nat :=
  match m with
  | 0 => order
  | S m' =>
      match first_row test M m with
      | None => order
      | Some t => peel test m' (del_rc t M) (del_nth t orig) (order ++ [nth t orig 0])
      end
  end.

(** [== 0] (ica_lingam.py:94, causal_based_simulator.py:645) *)
Definition is_zero (x : num) : bool := neqb x (Some 0%Qc).
(** ica_lingam.py:75-112; causal_based_simulator.py:625-662: None unless all rows were removed. *)
Definition ica_search (n : nat) (M : mat num) : option (list nat) :=
  let order := peel is_zero n M (seq 0 n) [] in
  if length order =? n then Some order else None.

(** ** ICALiNGAM *)
(** ica_lingam.py:132-133: set an entry to zero. *)
Definition zero_at (M : mat num) (ij : nat * nat) : mat num := upd2 M (fst ij) (snd ij) (Some 0%Qc).
(** ica_lingam.py:135-142.  Also returns the matrix as left by the loop (it is modified in place). *)
Fixpoint ica_est_loop (n : nat) (M : mat num) (rest : list (nat * nat))
  : option (list nat) * mat num :=
  match rest with
  | [] => (None, M)
  | ij :: r =>
      match ica_search n M with
      | Some o => (Some o, M)
      | None => ica_est_loop n (zero_at M ij) r
      end
  end.
(** ica_lingam.py:114-144.  [pos] is the oracle for [np.argsort(np.abs(matrix), axis=None)]
    turned into index pairs (127-128). *)
Definition ica_estimate_order (n : nat) (pos : list (nat * nat)) (M : mat num)
  : option (list nat) * mat num :=
  let k := n * (n + 1) / 2 in                                              (* 130 *)
  ica_est_loop n (fold_left zero_at (firstn k pos) M) (skipn k pos).

(** ica_lingam.py:56-68.  [W]: components of FastICA, [c]: column indices of
    linear_sum_assignment.  [PW_ica[col_index] = W_ica] puts row i of W at row c(i);
    [cinv] is the inverse of the assignment. *)
Definition ica_B (W : mat Qc) (cinv : nat -> nat) : mat Qc :=
  let PW := fun i j => W (cinv i) j in
  fun i j => ((if i =? j then 1 else 0) - PW i j / PW i i)%Qc.
(** Whole fit after the ICA step (68-73).  A [None] order makes
    [len(self._causal_order)] in base.py:144 raise TypeError. *)
Definition ica_fit (n : nat) (pos : list (nat * nat)) lasso (M : mat num)
  : result (list nat * mat num) :=
  match fst (ica_estimate_order n pos M) with
  | None => Err TypeError
  | Some K => Ok (K, estimate_adjacency_matrix lasso None K)
  end.

(** ** CausalEffect with a matrix (causal_effect.py:47-76) *)
(** [np.sum(np.abs(B_), axis=1) < 1e-10] *)
Definition eps10 : Qc := qf 1 10000000000.
Definition is_small (x : num) : bool := nltb x (Some eps10).
(** 59-71: for _ in range(n): ValueError if no row qualifies.  The loop ends early exactly
    when it raises. *)
Definition ce_order (n : nat) (M : mat num) : result (list nat) :=
  let order := peel is_small n M (seq 0 n) [] in
  if length order =? n then Ok order else Err ValueError.
