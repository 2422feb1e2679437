(** * Model of RESIT.bootstrap: BootstrapMixin.bootstrap (lingam/bootstrap.py 17-61) around RESIT.fit (lingam/resit.py 56-88) *)
From Coq Require Import List Arith Bool ZArith QArith Qcanon.
From Verif Require Import Prelude ModelPaths ModelBootstrap ModelResit.
Import ListNotations.
Open Scope nat_scope.

(** The data enter through the statistics and the answers of the tests (see ModelResit). *)
Definition resit_data := ((list nat -> nat -> num) * (nat -> list nat -> bool))%type.
(** resit.py 56-88: fit replaces the order and the matrix of the estimator; an exception leaves them *)
Definition resit_boot_fit (n : nat) (d : resit_data) (o : list nat * mat Qc) : (list nat * mat Qc) * option exn :=
  match resit_fit (fst d) (snd d) n with Ok r => (r, None) | Err e => (o, Some e) end.
(** resit.py inherits bootstrap.py 17-61 *)
Definition resit_bootstrap (n : nat) (n_sampling : Z) (resample : nat -> resit_data) (o : list nat * mat Qc)
    : (list nat * mat Qc) * result (list (mat num * mat num)) :=
  bootstrap _ _ (resit_boot_fit n) fst (fun o => fun i j => Some (snd o i j)) n n_sampling resample o.
(** resit.py 140-158 *)
Definition resit_estimate_total_effect (from to_ : nat) : num := Some 0%Qc.
