(** * CAM-UV on data: the residuals and tests of lingam/camuv.py with independence="hsic". *)
From Coq Require Import Reals Arith List QArith Qcanon.
From Verif Require Import Prelude ModelRCD ModelCAMUV.
Import ListNotations.
Open Scope nat_scope.

Section CamData.
  (** [reg n rows y]: the prediction learnt by pygam's LinearGAM from n rows (camuv.py 135-136). *)
  Variable reg : nat -> (nat -> list R) -> (nat -> R) -> list R -> R.
  (** hsic.py [hsic_test_gamma]: the p-value of a column and a block of columns (or NaN). *)
  Variable hsic_p : nat -> (nat -> R) -> (nat -> list R) -> num.
  Variable alpha : Qc.
  (** n rows; [X j s] is the value of column j in row s. *)
  Variable n : nat.
  Variable X : nat -> nat -> R.

  (** camuv.py 129-137 [_get_residual] *)
  Definition gam_residual (i : nat) (explanatory : list nat) (s : nat) : R :=
    match explanatory with
    | [] => X i s
    | _ => (X i s - reg n (fun s => map (fun j => X j s) explanatory) (X i) (map (fun j => X j s) explanatory))%R
    end.
  (** camuv.py 139-155 [_is_independent] of two residuals: [value > threshold], false for NaN *)
  Definition cam_ind (i : nat) (A : list nat) (j : nat) (B : list nat) : bool :=
    match hsic_p n (gam_residual i A) (fun s => [gam_residual j B s]) with
    | Some p => qltb alpha p
    | None => false
    end.
  (** camuv.py 250-253: the p-value of the child's residual and the columns of Y of the other members *)
  Definition cam_value (c : nat) (A : list nat) (qs : list (nat * list nat)) : num :=
    hsic_p n (gam_residual c A) (fun s => map (fun q => gam_residual (fst q) (snd q) s) qs).
  (** camuv.py 74-115 [fit] on d columns, without prior knowledge *)
  Definition camuv_data (iter : list nat -> list nat) (maxnum d : nat) : result (sets * mat num) :=
    cam_fit d maxnum true alpha None cam_ind cam_value iter.
End CamData.
