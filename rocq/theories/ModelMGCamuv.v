(** * Model of lingam/multi_group_camuv.py (MultiGroupCAMUV)

    The search (92-122, 196-372) is the text of camuv.py with every test on one data set replaced by one test
    on all of them; it is the model of ModelCAMUV.v with the combined tests below. *)
From Coq Require Import List Arith Bool ZArith QArith Qcanon.
From Verif Require Import Prelude ModelRCD ModelCAMUV ModelParce.
Import ListNotations.
Open Scope nat_scope.

(** 56-67: the constructor; [known]: independence is 'hsic' or 'fcorr' *)
Definition mgc_init (maxnum : Z) (alpha ind_corr : Qc) (known : bool) : result unit :=
  if (maxnum <=? 0)%Z then Err ValueError
  else if qltb alpha 0 then Err ValueError
  else if negb known then Err ValueError
  else if qltb ind_corr 0 then Err ValueError
  else Ok tt.

Section MultiGroup.
  Variable D : Type.                                     (* a data set *)
  Variable features : D -> option nat.                   (* number of columns, None if check_array rejects it *)
  (** [test X c A qs]: p-value of hsic_test_gamma, or f_correlation, between the residual of x_c on A and the
      residuals qs (each with the set it was taken on) within the data set X *)
  Variable test : D -> nat -> list nat -> list (nat * list nat) -> num.
  Variable m2log : Qc -> Qc.                             (* p |-> -2 log p *)
  Variable sf : ext -> nat -> num.                       (* chi2.sf *)

  (** 136-155 [_check_X_list]; [None]: not a list.  Returns the number of features. *)
  Definition check_X_list (Xs : option (list D)) : result nat :=
    match Xs with
    | None => Err ValueError                                                          (* 138-139 *)
    | Some l =>
        if length l <? 2 then Err ValueError                                          (* 141-142 *)
        else match l with
             | [] => Err ValueError
             | X :: _ =>
                 match features X with                                                (* 145 *)
                 | None => Err ValueError
                 | Some d =>
                     if forallb (fun X => match features X with Some d' => d' =? d | None => false end) l
                     then Ok d else Err ValueError                                    (* 147-152 *)
                 end
             end
    end.
  (** 178-185: Fisher's method over the data sets *)
  Definition fisher (ps : list num) : num :=
    sf (fold_left (fun s p => ext_plus s (match p with
                                          | None => NaN
                                          | Some p => if qeqb p 0 then PInf else Fin (m2log p)
                                          end)) ps (Fin 0)) (2 * length ps).
  (** 187-193: the largest F-correlation *)
  Definition largest (fs : list num) : num :=
    fold_left (fun mx f => if nltb mx f then f else mx) fs (Some 0%Qc).
  (** 175-194 [_is_independent_by]: the value *)
  Definition combined (hsic : bool) (Xs : list D) (c : nat) (A : list nat) (qs : list (nat * list nat)) : num :=
    let vs := map (fun X => test X c A qs) Xs in
    if hsic then fisher vs else largest vs.
  (** 167-173 [_is_independent] *)
  Definition combined_ind (hsic : bool) (thr : Qc) (Xs : list D) (i : nat) (A : list nat) (j : nat) (B : list nat) : bool :=
    let v := combined hsic Xs i A [(j, B)] in
    if hsic then nltb (Some thr) v else nltb v (Some thr).
  (** 90-122 [fit] *)
  Definition mgc_fit (maxnum : nat) (hsic : bool) (thr : Qc) (pk : option (list (nat * nat))) (iter : list nat -> list nat)
      (Xs : option (list D)) : result (sets * mat num) :=
    let* d := check_X_list Xs in
    let l := match Xs with Some l => l | None => [] end in
    cam_fit d maxnum hsic thr pk (combined_ind hsic thr l) (combined hsic l) iter.
End MultiGroup.
