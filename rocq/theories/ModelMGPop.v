(** * MultiGroupDirectLiNGAM on data: lingam/multi_group_direct_lingam.py 51-105, 292-316 *)
From Coq Require Import List Arith Bool QArith Qcanon.
From Verif Require Import Prelude SpecPop ModelDirect ModelTotal.
Import ListNotations.
Open Scope nat_scope.

(** A column of one data set: its number of rows and its values.  [np.copy] (82) is the identity here. *)
Definition gcol : Type := (nat * sample)%type.
(** direct_lingam.py 149-151 (inherited) applied to two columns of the same data set. *)
Definition g_residual (a b : gcol) : gcol := (fst a, np_residual (fst a) (snd a) (snd b)).

(** multi_group_direct_lingam.py 305-312: the value [M] of candidate [i] in one data set. *)
Definition mg_M (std : gcol -> gcol) (dmi : gcol -> gcol -> gcol -> gcol -> num)
    (X : nat -> gcol) (U Uc Vj : list nat) (i : nat) : num :=
  fold_left
    (fun M j =>
       if i =? j then M                                                           (* 307 *)
       else
         let xi := std (X i) in                                                   (* 308 *)
         let xj := std (X j) in                                                   (* 309 *)
         let ri_j := if memb i Vj && memb j Uc then xi else g_residual xi xj in   (* 310 *)
         let rj_i := if memb j Vj && memb i Uc then xj else g_residual xj xi in   (* 311 *)
         nadd M (min0_sq (dmi xi xj ri_j rj_i)))                                  (* 312 *)
    U (Some 0%Qc).

(** The list of data sets: data set [g] < [G] has [N g] rows and the variables [x g]. *)
Definition mg_data (G : nat) (N : nat -> nat) (x : nat -> nat -> sample) : list (nat * (nat -> gcol)) :=
  map (fun g => (N g, fun i => (N g, x g i))) (seq 0 G).

(** 68-105: the shared causal order and one adjacency matrix per data set;
    [lasso g]: predict_adaptive_lasso on data set [g]. *)
Definition mg_direct_fit (std : gcol -> gcol) (dmi : gcol -> gcol -> gcol -> gcol -> num)
    (lasso : nat -> list nat -> nat -> nat -> num) (n : nat) (pk_shape_ok : bool) (mode : pk_mode)
    (G : nat) (N : nat -> nat) (x : nat -> nat -> sample) : result (list nat * list (mat num)) :=
  let* K := mg_fit_order g_residual (mg_M std dmi) n pk_shape_ok mode (mg_data G N x) in
  Ok (K, map (mg_adjacency lasso (pk_of_mode mode) K) (seq 0 G)).
