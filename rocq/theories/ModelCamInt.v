(** * Model of lingam/camuv.py on a table of whole numbers

    check_array (88) keeps the dtype of X, and [Y = copy.deepcopy(X)] (175) has it too.  The assignment of a residual to a column
    of Y (232) therefore converts real numbers to the dtype of X: for a table of integers they are cut off at the decimal
    point.  Y is used by _get_child (250-252) and _check_independence_withou_K (268-269); neighbours, the pruning of the parents
    and the pairs with hidden common causes are computed with X and the residuals themselves.  Everything else is as in
    ModelCAMUV.v and ModelCamData.v; integers do not overflow in this model.  The same assignment is in
    lingam/multi_group_camuv.py 284. *)
From Coq Require Import Reals List Arith Bool QArith Qcanon.
From Verif Require Import Prelude Loop ModelRCD ModelCAMUV ModelCamData ModelDirectInt.
Import ListNotations.
Open Scope nat_scope.

Section Search.
  Variables (d maxnum : nat) (hsic : bool) (thr : Qc) (pk : option (list (nat * nat))).
  (** [ind] as in ModelCAMUV.v; [indY i A j B]: the test of the columns i and j of Y when the residuals on A and B are stored there *)
  Variables ind indY : nat -> list nat -> nat -> list nat -> bool.
  Variable value : nat -> list nat -> list (nat * list nat) -> num.
  Variable iter : list nat -> list nat.
  (** 180-200 *)
  Definition cam_visit_Y (N : sets) (st : sets * bool) (vs : list nat) : sets * bool :=
    let '(P, changed) := st in
    if negb (not_identified P vs) then st
    else match get_child d hsic thr pk value iter N P vs with
         | (Some c, true) =>
             let ps := remove_nat c vs in
             if negb (dependent_without d indY P ps c) then st
             else (absorb P c ps, match ps with [] => changed | _ => true end)
         | _ => st
         end.
  (** 176-207 *)
  Definition cam_step_Y (N : sets) (st : sets * nat) : (sets * nat) + sets :=
    let '(P, t) := st in
    let '(P', changed) := fold_left (cam_visit_Y N) (combs t (seq 0 d)) (P, false) in
    if changed then inl (P', 2) else if maxnum <? S t then inr P' else inl (P', S t).
  (** 170-221 *)
  Definition find_parents_Y (k : nat) : option sets :=
    match loop (cam_step_Y (neighborhoods d ind)) k (no_sets, 2) with
    | inl _ => None
    | inr P => Some (prune d ind P)
    end.
  (** 74-115 *)
  Definition cam_fit_Y : result (sets * mat num) :=
    if maxnum =? 0 then Err ValueError
    else match find_parents_Y (S (Nat.log2 (cam_top d maxnum))) with
         | None => Err OutOfFuel
         | Some P => Ok (P, cam_adjacency P (cam_confounded d ind (neighborhoods d ind) P))
         end.
End Search.

Section Data.
  (** [whole]: X has an integer dtype; the others as in ModelCamData.v *)
  Variable whole : bool.
  Variable reg : nat -> (nat -> list R) -> (nat -> R) -> list R -> R.
  Variable hsic_p : nat -> (nat -> R) -> (nat -> list R) -> num.
  Variable alpha : Qc.
  Variable n : nat.
  Variable X : nat -> nat -> R.
  (** 230-233 [_get_residuals_matrix]; a column without parents is still that of X *)
  Definition stored_gam (i : nat) (A : list nat) : nat -> R :=
    if whole then match A with [] => X i | _ => fun s => trunc (gam_residual reg n X i A s) end else gam_residual reg n X i A.
  (** 268-270 *)
  Definition ind_stored (i : nat) (A : list nat) (j : nat) (B : list nat) : bool :=
    match hsic_p n (stored_gam i A) (fun s => [stored_gam j B s]) with Some p => qltb alpha p | None => false end.
  (** 249-252 *)
  Definition value_stored (c : nat) (A : list nat) (qs : list (nat * list nat)) : num :=
    hsic_p n (gam_residual reg n X c A) (fun s => map (fun q => stored_gam (fst q) (snd q) s) qs).
  (** 74-115 [fit] on d columns, without prior knowledge *)
  Definition camuv_data_dtype (iter : list nat -> list nat) (maxnum d : nat) : result (sets * mat num) :=
    cam_fit_Y d maxnum true alpha None (cam_ind reg hsic_p alpha n X) ind_stored value_stored iter.
End Data.
