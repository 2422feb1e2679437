(** * MultiGroupCAMUV on data: the residuals and tests of lingam/multi_group_camuv.py with independence="hsic". *)
From Coq Require Import Reals Arith List QArith Qcanon.
From Verif Require Import Prelude ModelRCD ModelCAMUV ModelCamData ModelParce ModelMGCamuv.
Import ListNotations.
Open Scope nat_scope.

(** A data set: the number of rows, and the columns. *)
Definition camset : Type := nat * (nat -> nat -> R).

Section MGCamData.
  Variable reg : nat -> (nat -> list R) -> (nat -> R) -> list R -> R.       (* LinearGAM().fit(...).predict, 163-164 *)
  Variable hsic_p : nat -> (nat -> R) -> (nat -> list R) -> num.            (* hsic_test_gamma's p-value, 181 *)
  Variable m2log : Qc -> Qc.                                                (* 182 *)
  Variable sf : ext -> nat -> num.                                          (* chi2.sf, 183 *)
  (** 157-165 [_get_residual] within one data set is camuv.py's; 106-113, 202-207, 260-267, 300-306, 325-330: the columns handed to the test *)
  Definition set_test (X : camset) (c : nat) (A : list nat) (qs : list (nat * list nat)) : num := cam_value reg hsic_p (fst X) (snd X) c A qs.
  (** 76-122 [fit] on data sets of d columns each, without prior knowledge *)
  Definition mgcamuv_data (alpha : Qc) (iter : list nat -> list nat) (maxnum d : nat) (Xs : list camset) : result (sets * mat num) :=
    mgc_fit camset (fun _ => Some d) set_test m2log sf maxnum true alpha None iter (Some Xs).
End MGCamData.
