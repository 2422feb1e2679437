(** * Model of the queries of MultiGroupRCD objects (lingam/multi_group_rcd.py 130-265, 312-331) on any list of data sets *)
From Coq Require Import List Arith Bool ZArith QArith Qcanon.
From Verif Require Import Prelude SpecPop ModelDirect ModelRCD ModelQuery.
Import ListNotations.
Open Scope nat_scope.

(** A data set accepted by check_array: rows, columns and its columns as samples. *)
Record dset := { rows : nat; cols : nat; col : nat -> sample }.
(** What fit leaves (119-126): number of variables, ancestor sets, one matrix per data set.  None: not fitted (88-89). *)
Record mgrcd := { nvar : nat; anc : sets; ams : list (mat num) }.

(** 312-331; the answer is self._n_features.  A list that is no list is left out, check_array is taken to accept the items. *)
Definition mgr_check (Xs : list dset) : result nat :=
  if length Xs <? 2 then Err ValueError                                                     (* 317-318 *)
  else match Xs with
       | [] => Err ValueError
       | X0 :: _ => if forallb (fun X => cols X =? cols X0) Xs then Ok (cols X0) else Err ValueError    (* 321-329 *)
       end.

(** 161-184.  [ols X predictors target j]: coefficient of x_j in the regression on data set X.  A predictor or target that
    is no column of X raises IndexError. *)
Fixpoint mgr_effects (ols : dset -> list nat -> nat -> nat -> num) (n : nat) (from to : nat) (Xs : list dset) (Bs : list (mat num))
    : result (list num) :=
  match Xs, Bs with
  | X :: Xs', B :: Bs' =>                                                                   (* 162: zip *)
      if row_has_nan n B from then Ok []                                                    (* 164-169 *)
      else if forallb (fun p => p <? cols X) (to :: effect_predictors n B from) then
        let* r := mgr_effects ols n from to Xs' Bs' in
        Ok (ols X (effect_predictors n B from) to from :: r)                                (* 172-182 *)
      else Err IndexError
  | _, _ => Ok []
  end.
(** 130-184 [estimate_total_effect]; the value only, the warning of 154-159 is left out *)
Definition mgr_total_effect (ols : dset -> list nat -> nat -> nat -> num) (o : option mgrcd) (Xs : list dset) (from to : nat)
    : result (list num) :=
  match mgr_check Xs with                                                                   (* 151 *)
  | Err e => Err e
  | Ok _ =>
      match o with
      | None => Err TypeError                                                               (* 154: None[from_index] *)
      | Some f => if nvar f <=? from then Err IndexError                                    (* 154 *)
                  else mgr_effects ols (nvar f) from to Xs (ams f)
      end
  end.

(** 244: the variables in a row or a column of a NaN *)
Definition nan_var (n : nat) (B : mat num) (i : nat) : bool :=
  existsb (fun j => match B i j, B j i with Some _, Some _ => false | _, _ => true end) (seq 0 n).
(** 242-255; [hsic N a b]: p-value of hsic_test_gamma on two columns of N rows *)
Definition mgr_pvals (hsic : nat -> (nat -> num) -> (nat -> num) -> num) (n : nat) (X : dset) (B : mat num) : mat num :=
  error_independence_p_values
    (fun i j => if nan_var n B i || nan_var n B j then None
                else hsic (rows X) (error_col n B (col X) i) (error_col n B (col X) j)) n.
(** 240-241: the array starts as zeros; zip stops with the shorter list.  np.dot (243) raises when the widths differ. *)
Fixpoint mgr_p_loop (hsic : nat -> (nat -> num) -> (nat -> num) -> num) (n : nat) (Xs : list dset) (Bs : list (mat num))
    : result (list (mat num)) :=
  match Xs, Bs with
  | [], _ => Ok []
  | _ :: Xs', [] => let* r := mgr_p_loop hsic n Xs' [] in Ok ((fun _ _ => Some 0%Qc) :: r)
  | X :: Xs', B :: Bs' =>
      if cols X =? n then let* r := mgr_p_loop hsic n Xs' Bs' in Ok (mgr_pvals hsic n X B :: r)
      else Err ValueError
  end.
(** 219-265 [get_error_independence_p_values] *)
Definition mgr_p_values (hsic : nat -> (nat -> num) -> (nat -> num) -> num) (o : option mgrcd) (Xs : list dset) : result (list (mat num)) :=
  match mgr_check Xs with                                                                   (* 238 *)
  | Err e => Err e
  | Ok _ =>
      match o with
      | None => Err TypeError                                                               (* 241: zip(X_list, None) *)
      | Some f => mgr_p_loop hsic (nvar f) Xs (ams f)
      end
  end.
