(** * CAM-UV with the HSIC test itself: lingam/camuv.py and lingam/multi_group_camuv.py (independence="hsic") on top of
      lingam/hsic.py, over the real numbers.

    [gamma_sf] and [float]: hsic.py 160-163, the p-value of the approximating gamma distribution (or NaN), and its
    floating-point value; all else is computed exactly. *)
From Coq Require Import Reals Arith Bool List QArith Qcanon.
From Verif Require Import Prelude LibR ModelRCD ModelCAMUV ModelResitR ModelCamData ModelParce ModelMGCamuv ModelMGCamData.
Import ListNotations.
Open Scope nat_scope.

Section CamHsic.
  Variable gamma_sf : nat -> R -> R -> R -> option R.
  Variable float : R -> Qc.
  (** hsic.py 101-165 of a column and a block, as camuv.py 150 calls it: the p-value *)
  Definition hsic_p_value (n : nat) (y : nat -> R) (rows : nat -> list R) : num :=
    match hsic_test gamma_sf n 1 (length (rows 0)) (fun s _ => y s) (fun s k => nth k (rows s) 0%R) with
    | Ok (_, Some p) => Some (float p)
    | _ => None
    end.
  (** LinearGAM().fit(...).predict, camuv.py 135-136 *)
  Variable reg : nat -> (nat -> list R) -> (nat -> R) -> list R -> R.

  (** camuv.py 55-57 and 74-115: [fit] on n rows of d columns.  On at most three rows the first test (165, 150) divides by zero. *)
  Definition camuv_hsic (alpha : Qc) (pk : option (list (nat * nat))) (iter : list nat -> list nat) (maxnum n d : nat)
      (X : nat -> nat -> R) : result (sets * mat num) :=
    if maxnum =? 0 then Err ValueError
    else if (2 <=? d) && (n <=? 3) then Err ZeroDivisionError
    else cam_fit d maxnum true alpha pk (cam_ind reg hsic_p_value alpha n X) (cam_value reg hsic_p_value n X) iter.

  Variable m2log : Qc -> Qc.                                                (* multi_group_camuv.py 182 *)
  Variable sf : ext -> nat -> num.                                          (* chi2.sf, 183 *)
  (** multi_group_camuv.py 55-57 and 76-122: [fit] on data sets (rows, columns) of d columns each *)
  Definition mgcamuv_hsic (alpha : Qc) (pk : option (list (nat * nat))) (iter : list nat -> list nat) (maxnum d : nat)
      (Xs : list camset) : result (sets * mat num) :=
    if maxnum =? 0 then Err ValueError
    else let* _ := check_X_list camset (fun _ => Some d) (Some Xs) in
    if (2 <=? d) && existsb (fun X => fst X <=? 3) Xs then Err ZeroDivisionError
    else mgc_fit camset (fun _ => Some d) (set_test reg hsic_p_value) m2log sf maxnum true alpha pk iter (Some Xs).
End CamHsic.
