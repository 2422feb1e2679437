(** * Model of the statistics of lingam/high_dim_direct_lingam.py on data.

    The loop is that of ModelHighDim; here its two tables of statistics are computed from the columns. *)
From Coq Require Import List Arith Bool ZArith QArith Qcanon.
From Verif Require Import Prelude SpecPop ModelDirect ModelRCD ModelHighDim.
Import ListNotations.

Section Data.
  (** Number of rows; [pinv x C v q] is the entry of [b] (126) for the column [q] of the regression of column [v] on
      the columns [C]. *)
  Variable N : nat.
  Variable pinv : (nat -> sample) -> list nat -> nat -> nat -> Qc.
  (** The degree of the moment (K, an int of at least 1: constructor, line 45). *)
  Variable K : nat.
  (** The columns. *)
  Variable Y : nat -> sample.

  (** 116-117 [_calc_tau] *)
  Definition calc_tau (pa ch : sample) : Qc :=
    qabs (mean N (fun r => pa r ^ (K - 1) * ch r) * mean N (fun r => pa r ^ 2) - mean N (fun r => pa r ^ K) * mean N (fun r => pa r * ch r))%Qc.
  Definition data_tau0 (v j : nat) : Qc := calc_tau (Y v) (Y j).

  (** 126-127 *)
  Definition hd_resid (C : list nat) (v : nat) : sample :=
    let b := pinv Y C v in fun r => (Y v r - sumf C (fun q => b q * Y q r))%Qc.
  (** 129-142: the value before the minimum is taken. *)
  Definition data_tau (v : nat) (C : list nat) (j : nat) : Qc :=
    let u := hd_resid C v in
    let resid_k_1 := fun r => (u r ^ (K - 1))%Qc in                           (* 129 *)
    let resid_var := mean N (fun r => u r ^ 2)%Qc in                          (* 130 *)
    let resid_k := mean N (fun r => u r ^ K)%Qc in                            (* 131 *)
    qabs (1 / qn N * sumn N (fun r => resid_k_1 r * Y j r) * resid_var
          - resid_k * (1 / qn N) * sumn N (fun r => u r * Y j r))%Qc.         (* 134-142 *)

  (** 64-102 [fit] up to the causal order. *)
  Definition data_order (enum : list nat -> list nat) (J : nat) (alpha : Qc) (n : nat) : result (list nat) :=
    hd_order data_tau0 data_tau enum J alpha true n.

  (** NOT the code: the same loop with two changes.  A variable of the conditioning set keeps its statistic (in the
      code the last placed variable is both in the conditioning set, 166-170, and in the list of ancestors whose
      statistic is recomputed, 162), and the loop over the conditioning sets runs to its end (144). *)
  Definition data_tau_repaired (v : nat) (C : list nat) (j : nat) : Qc :=
    if memb j C then qz 10000000000 else data_tau v C j.
  Definition data_order_repaired (enum : list nat -> list nat) (J : nat) (alpha : Qc) (n : nat) : result (list nat) :=
    hd_order data_tau0 data_tau_repaired enum J alpha false n.
End Data.
