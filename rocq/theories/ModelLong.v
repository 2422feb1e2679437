(** * Model of lingam/longitudinal_lingam.py. *)
From Coq Require Import List Arith Bool ZArith QArith Qcanon.
From Verif Require Import Prelude Spec ModelPaths.
Import ListNotations.
Open Scope nat_scope.

(** [X t s i]: time point, sample, variable; [T] time points, [p] variables, [L] = n_lags >= 1. *)
Definition panel := nat -> nat -> nat -> Qc.

(** 413: np.vstack(X_t[t-L:t]): row [r] of the predictors (variables x samples). *)
Definition lag_stack (p L : nat) (X : panel) (t : nat) : mat Qc :=
  fun r s => X (t - L + r / p) s (r mod p).

Section Fit.
  (** [reg Z y]: the coefficients (p rows, L*p columns) of the regression of the variables [y t]
      on the rows of [Z]; [lingam N]: order and matrix of DirectLiNGAM on the residuals. *)
  Variable reg : mat Qc -> mat Qc -> mat Qc.
  Variable lingam : mat Qc -> list nat * mat Qc.
  Variables p L : nat.
  Variable X : panel.

  Definition coef (t : nat) : mat Qc := reg (lag_stack p L X t) (fun i s => X t s i).      (* 413-417 *)
  (** 419: np.split(reg.coef_, n_lags, axis=1)[l] *)
  Definition M_tau (t l : nat) : mat Qc := fun i j => coef t i (l * p + j).
  (** 420 (variables x samples) *)
  Definition N_t (t : nat) : mat Qc :=
    fun i s => (X t s i - sumn (L * p) (fun r => coef t i r * lag_stack p L X t r s))%Qc.
  Definition B_t (t : nat) : mat Qc := snd (lingam (N_t t)).                                (* 428-432 *)
  (** 435-441 *)
  Definition B_tau (t l : nat) : mat Qc := mmul p (msub midn (B_t t)) (M_tau t l).
  (** 99-108: adjacency_matrices_[t, tau], tau <= L. *)
  Definition long_adj (t tau : nat) : mat num :=
    fun i j => if t <? L then None
               else Some (match tau with 0 => B_t t i j | S l => B_tau t l i j end).
  (** 110-112 *)
  Definition long_resid (t : nat) : mat num :=
    fun s i => if t <? L then None else Some (N_t t i s).
  (** 426, 431 *)
  Definition long_orders (t : nat) : list (option nat) :=
    if t <? L then repeat None p else map Some (fst (lingam (N_t t))).
End Fit.

(** ** Prior knowledge (114-190) *)
(** 122-130: window of -1, one block row after the other. *)
Definition pk_window (p L T : nat) : mat Z :=
  fun r c => let t := r / p in
             let col_end := (t + 1) * p in
             let col_start := col_end - p * (L + 1) in
             if (t <? T) && (col_start <=? c) && (c <? col_end) then (-1)%Z else 0%Z.
(** 132-152: the blocks of the given knowledge [A t tau] (values other than 0 and 1 leave the entry). *)
Definition pk_block (p : nat) (A : mat Z) (row col : nat) (m : mat Z) : mat Z :=
  fun r c => if (row * p <=? r) && (r <? (row + 1) * p) && (col * p <=? c) && (c <? (col + 1) * p)
             then let a := A (r - row * p) (c - col * p) in
                  if (a =? 0)%Z then 0%Z else if (a =? 1)%Z then 1%Z else m r c
             else m r c.
Definition long_pk (p L T : nat) (A : nat -> nat -> mat Z) : mat Z :=
  fold_left (fun m t =>
    fold_left (fun m tau => if t <? tau then m else pk_block p (A t tau) t (t - tau) m) (seq 0 (L + 1)) m)
    (seq 0 T) (pk_window p L T).
(** 161-171: blocks of the estimated matrix [G], then the lag axis reversed. *)
Definition long_adj_pk (p L : nat) (G : mat Qc) (t tau : nat) : mat num :=
  let adjs := fun lag i j => G (t * p + i) ((t - lag) * p + j) in
  fun i j => if t <? L then None
             else Some (match tau with 0 => adjs 0 i j | S _ => adjs (L + 1 - tau) i j end).
(** 173-188: order of time [t] from the global order. *)
Definition min_list (l : list nat) : nat := fold_left Nat.min l (hd 0 l).
Definition long_order_pk (p : nat) (order : list nat) (t : nat) : list nat :=
  let o := filter (fun x => (t * p <=? x) && (x <? (t + 1) * p)) order in
  map (fun v => v - min_list o) o.

(** ** Total effects *)
(** 355-369: [adj t tau]; the window from_t..to_t (from_t <= to_t). *)
Definition long_expansion (p L : nat) (adj : nat -> nat -> mat num) (from_t n_t : nat) : mat num :=
  fold_left (fun E i =>
    fold_left (fun E j =>
      if i <? j then E else if L <? i - j then E
      else fun r c => if (p * i <=? r) && (r <? p * i + p) && (p * j <=? c) && (c <? p * j + p)
                      then adj (i + from_t) (i - j) (r - p * i) (c - p * j) else E r c)
      (seq 0 n_t) E)
    (seq 0 n_t) (fun _ _ => Some 0%Qc).
(** 319-373 [estimate_total_effect2]; an index NaN is rejected by check_scalar (TypeError).
    340-341: list.index, a ValueError for an index missing from the order (NaN is found by
    identity).  Warnings are not modelled. *)
Definition opt_mem (x : option nat) (l : list (option nat)) : bool :=
  existsb (fun y => match x, y with Some a, Some b => a =? b | None, None => true | _, _ => false end) l.
Definition long_effect2 (p L : nat) (adj : nat -> nat -> mat num) (orders : nat -> list (option nat))
    (from_t : nat) (from : option nat) (to_t : nat) (to_ : option nat) : result num :=
  if (to_t =? from_t) && negb (opt_mem from (orders to_t) && opt_mem to_ (orders from_t)) then Err ValueError
  else
    let n_t := to_t - from_t + 1 in
    if p * n_t <? 2 then Err ValueError
    else match from, to_ with
         | Some f, Some g => calculate_total_effect (p * n_t) (long_expansion p L adj from_t n_t) f (p * (to_t - from_t) + g) None
         | _, _ => Err TypeError
         end.

(** 243-257: the loop over the total effects of one bootstrap sample: the list of the assigned
    entries ((to_t, to), (from_t, from), effect) in order, or the exception. *)
Definition entry := ((nat * option nat) * (nat * option nat) * num)%type.
Fixpoint effects_of (p L : nat) adj orders (from_t : nat) (from : option nat)
    (targets : list (nat * option nat)) : result (list entry) :=
  match targets with
  | [] => Ok []
  | (to_t, to_) :: r =>
      let* e := long_effect2 p L adj orders from_t from to_t to_ in
      let* es := effects_of p L adj orders from_t from r in
      Ok ((to_t, to_, (from_t, from), e) :: es)
  end.
(** 244-257: sources [from_] at position c of the order, with the rest of the order, then all
    later time points. *)
Fixpoint effects_from (p L : nat) adj (orders : nat -> list (option nat)) (T from_t : nat)
    (order : list (option nat)) : result (list entry) :=
  match order with
  | [] => Ok []
  | from :: rest =>
      let targets := map (fun to_ => (from_t, to_)) rest ++
                     flat_map (fun to_t => map (fun to_ => (to_t, to_)) (orders to_t)) (seq (from_t + 1) (T - (from_t + 1))) in
      let* es := effects_of p L adj orders from_t from targets in
      let* es' := effects_from p L adj orders T from_t rest in
      Ok (es ++ es')
  end.
Fixpoint effects_all (p L : nat) adj orders (T : nat) (times : list nat) : result (list entry) :=
  match times with
  | [] => Ok []
  | t :: r =>
      let* es := effects_from p L adj orders T t (orders t) in
      let* es' := effects_all p L adj orders T r in
      Ok (es ++ es')
  end.
Definition long_boot_effects (p L : nat) adj orders (T start_from_t : nat) : result (list entry) :=
  effects_all p L adj orders T (seq start_from_t (T - start_from_t)).
