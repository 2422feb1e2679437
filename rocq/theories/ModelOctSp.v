(** * Model of the sparsity penalty of lingam/experimental/oct.py (OutOfSampleCausalTuning), over the reals. *)
From Coq Require Import Reals Arith List Lia Bool QArith Qcanon.
From Verif Require Import Prelude ModelExper ModelOct.
Import ListNotations.
Open Scope R_scope.

(** A difference of two scores as a float. *)
Inductive diff := DNan | DNInf | DInf | DFin (r : R).
Definition score_sub (a b : score) : diff :=
  match a, b with
  | Nan, _ => DNan
  | _, Nan => DNan
  | Inf, Inf => DNan
  | Inf, Fin _ => DInf
  | Fin _, Inf => DNInf
  | Fin x, Fin y => DFin (x - y)
  end.
(** [a > b]; false with NaN *)
Definition dgt (a b : diff) : bool :=
  match a, b with
  | DNan, _ => false
  | _, DNan => false
  | DInf, DInf => false
  | DInf, _ => true
  | _, DInf => false
  | DNInf, _ => false
  | DFin _, DNInf => true
  | DFin x, DFin y => if Rlt_dec y x then true else false
  end.

Section Penalty.
  Variable d : nat.                                      (* columns *)
  (** [truth k j], [pred k j]: the values of column j in the test rows of configuration k, and its predictions (oct.py 336-347) *)
  Variables (truth pred : nat -> nat -> list R).
  (** The result of rs.permutation: for configuration k, trial t and column j the positions drawn for the best configuration's
      predictions ([true], 350) and for the own predictions ([false], 351). *)
  Variable draw : nat -> nat -> nat -> bool -> list nat.
  Definition shuffled (l : list R) (sigma : list nat) : list R := map (fun p => nth p l 0) sigma.
  (** oct.py 290-308: the score *)
  Definition config_score (k : nat) : score := score_mean (map (fun j => mutual_info (truth k j) (pred k j)) (seq 0 d)).
  (** oct.py 332-361: one trial *)
  Definition trial_diff (best k t : nat) : diff :=
    score_sub (score_mean (map (fun j => mutual_info (truth k j) (shuffled (pred best j) (draw k t j true))) (seq 0 d)))
              (score_mean (map (fun j => mutual_info (truth k j) (shuffled (pred k j) (draw k t j false))) (seq 0 d))).
  (** oct.py 327, 361-364: the number of trials above the observed difference *)
  Definition above (trials best k : nat) : nat :=
    length (filter (fun t => dgt (trial_diff best k t) (score_sub (config_score best) (config_score k))) (seq 0 trials)).
  Definition p_value (trials best k : nat) : Qc := (qn (above trials best k) / qn trials)%Qc.
  (** oct.py 319-376 [_sparsity_penalty]; [K] configurations with mean blanket sizes [mb]; trial_num = 1000 *)
  Definition penalised (thr : Qc) (mb : nat -> Qc) (K best : nat) : nat := oct_select thr (p_value 1000 best) mb K best.
End Penalty.
