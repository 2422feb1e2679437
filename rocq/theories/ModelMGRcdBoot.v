(** * Model of MultiGroupRCD.bootstrap (lingam/multi_group_rcd.py 259-310) with its exceptions *)
From Coq Require Import List Arith Bool ZArith QArith Qcanon.
From Verif Require Import Prelude ModelPaths ModelRCD ModelQuery ModelRcdBoot ModelMGRcdQuery.
Import ListNotations.
Open Scope nat_scope.

(** multi_group_rcd.py 198-220: estimate_total_effect2; warnings left out.  The loop ends at the first matrix with a NaN
    in the row of the cause, and the effects found so far are returned. *)
Fixpoint mgr_effect2 (n : nat) (ams : list (mat num)) (from to : nat) : result (list num) :=
  match ams with
  | [] => Ok []
  | B :: r => if row_has_nan n B from then Ok []                                                   (* 209-214 *)
              else let* e := calculate_total_effect n B from to None in                            (* 216 *)
                   let* l := mgr_effect2 n r from to in Ok (e :: l)
  end.
(** 289-291, 299-304: the arrays start as zeros and receive the effects returned for one pair.  [rcd_boot_pairs]: the pairs
    of the two loops, with the simplification stated there. *)
Fixpoint mgr_boot_store (n : nat) (ams : list (mat num)) (l : list (nat * nat)) (te : nat -> mat num) : result (nat -> mat num) :=
  match l with
  | [] => Ok te
  | (to, from) :: r =>
      let* es := mgr_effect2 n ams from to in
      mgr_boot_store n ams r (fun g i j => if (i =? to) && (j =? from) then nth g es (te g i j) else te g i j)
  end.
(** 292-304: one round for each list of resampled data sets.  The object keeps the ancestors and the matrices of the last
    fit that finished (97-129; what a fit that raises leaves behind is not modelled). *)
Fixpoint mgr_boot_loop {D : Type} (n : nat) (fit : D -> result (sets * list (mat num))) (Xs : list D) (o : option mgrcd)
    : option mgrcd * result (list (list (mat num) * (nat -> mat num))) :=
  match Xs with
  | [] => (o, Ok [])
  | X :: Xs' =>
      match fit X with
      | Err e => (o, Err e)                                                                        (* 294 *)
      | Ok (M, ams) =>
          match mgr_boot_store n ams (rcd_boot_pairs n M) (fun _ _ _ => Some 0%Qc) with
          | Err e => (Some {| nvar := n; anc := M; ams := ams |}, Err e)
          | Ok te =>
              match mgr_boot_loop n fit Xs' (Some {| nvar := n; anc := M; ams := ams |}) with
              | (o', Ok l) => (o', Ok ((ams, te) :: l))
              | (o', Err e) => (o', Err e)
              end
          end
      end
  end.
(** 259-310: the result has one list of (matrix, total effects) for each data set.  [resample k Xs]: the lists drawn in
    round k. *)
Definition mgr_bootstrap (fit : list dset -> result (sets * list (mat num))) (n_sampling : Z) (resample : nat -> list dset -> list dset)
    (Xs : list dset) (o : option mgrcd) : option mgrcd * result (list (list (mat num * mat num))) :=
  match mgr_check Xs with                                                                          (* 277 *)
  | Err e => (o, Err e)
  | Ok n =>
      if (0 <? n_sampling)%Z then
        match mgr_boot_loop n fit (map (fun k => resample k Xs) (seq 0 (Z.to_nat n_sampling))) o with
        | (o', Ok l) => (o', Ok (map (fun g => map (fun r => (nth g (fst r) (fun _ _ => Some 0%Qc), snd r g)) l) (seq 0 (length Xs))))   (* 306-308 *)
        | (o', Err e) => (o', Err e)
        end
      else (o, Err ValueError)                                                                     (* 279-283 *)
  end.
