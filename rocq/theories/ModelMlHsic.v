(** * Model of the objective of MLHSICR (lingam/rcd.py 186-225), over the real numbers.

    Columns are functions of the row.  NaN is [None]: the width of a constant column (the median of an empty array), and
    every kernel matrix of width 0, whose diagonal is 0/0.  Rounding is not modelled. *)
From Coq Require Import Reals Arith List.
From Verif Require Import LibR ModelKernel.
Import ListNotations.
Open Scope R_scope.

(** np.sort and np.median *)
Fixpoint rinsert (x : R) (l : list R) : list R :=
  match l with [] => [x] | y :: r => if Rle_dec x y then x :: l else y :: rinsert x r end.
Definition rsort (l : list R) : list R := fold_right rinsert [] l.
Definition rmedian (l : list R) : option R :=
  match l with
  | [] => None
  | _ => let s := rsort l in let k := length s in
         Some (if Nat.odd k then nth (k / 2) s 0 else (nth (k / 2 - 1) s 0 + nth (k / 2) s 0) / 2)
  end.
Definition positive (x : R) : bool := if Rlt_dec 0 x then true else false.
(** hsic.py 34-46 for one column: the positive squared distances above the diagonal among the first 100 rows *)
Definition rdists (n : nat) (x : nat -> R) : list R :=
  filter positive (flat_map (fun i => map (fun j => if (j <=? i)%nat then 0 else x i * x i + x j * x j - 2 * (x i * x j)) (seq 0 n)) (seq 0 n)).
Definition kernel_width (n : nat) (x : nat -> R) : option R :=
  option_map (fun q => sqrt (1 / 2 * q)) (rmedian (rdists (if (100 <? n)%nat then 100%nat else n) x)).
(** rcd.py 191-197, 207-210: the matrix of a column and a width *)
Definition column_gram (n : nat) (x : nat -> R) (width : R) : rmat := snd (get_gram_matrix n 1 (fun s _ => x s) width).

Section Objective.
  Variables (n : nat) (Y : nat -> nat -> R) (xi : nat) (xjs : list nat).
  (** 204-209: residual and width *)
  Definition ml_residual (coef : nat -> R) : nat -> R := fun s => fold_left (fun v j => v - coef j * Y j s) xjs (Y xi s).
  Definition ml_width (coef : nat -> R) : option R :=
    fold_left (fun w j => match w, kernel_width n (Y j) with Some w, Some wj => Some (w - coef j * wj) | _, _ => None end)
              xjs (kernel_width n (Y xi)).
  (** 201-214: [sum_empirical_hsic]; [coef j] is the coefficient of column [j] *)
  Definition sum_empirical_hsic (coef : nat -> R) : option R :=
    match ml_width coef with
    | None => None
    | Some w =>
        if Req_EM_T w 0 then None
        else
          let Kc := column_gram n (ml_residual coef) w in                                      (* 208 *)
          fold_left (fun o j => match o, kernel_width n (Y j) with
                                | Some o, Some wj => Some (o + hsic_teststat Kc (column_gram n (Y j) wj) n)   (* 210-212 *)
                                | _, _ => None
                                end) xjs (Some 0)
    end.
End Objective.
