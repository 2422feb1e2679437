(** * Model of lingam/direct_lingam.py on a table of whole numbers

    check_array (77) keeps the dtype of X, and [X_ = np.copy(X)] (94) has it too.  The assignment of a residual to a column of
    X_ (106) therefore converts real numbers to the dtype of X: for a table of integers they are cut off at the decimal point,
    and NaN becomes some fixed integer [nan_int] (for the usual processors the smallest one).  For measure="kernel" X_ is
    replaced by [scale(X_)] (96), which consists of floats for every X.  Everything else is as in ModelDirectR.v; integers
    do not overflow in this model. *)
From Coq Require Import Reals Arith Bool List.
From Verif Require Import Prelude LibR ModelDirectR.
From Verif Require ModelDirect.
Import ListNotations.
Open Scope R_scope.

(** numpy's conversion of a float to an integer: towards zero *)
Definition trunc (x : R) : R := if Rle_dec 0 x then IZR (Int_part x) else - IZR (Int_part (- x)).
(** X_[:, i] = ...: [whole] says whether X has an integer dtype *)
Definition store (whole : bool) (nan_int : R) (c : col) : col :=
  if whole then match c with Some x => Some (fun s => trunc (x s)) | None => Some (fun _ => nan_int) end else c.
(** 104-106 *)
Definition regress_out_int (whole : bool) (nan_int : R) (n : nat) (X : nat -> col) (U : list nat) (m : nat) : nat -> col :=
  fold_left (fun X i => if (i =? m)%nat then X else upd X i (store whole nan_int (residual n (X i) (X m)))) U X.
(** 97-113 *)
Fixpoint loop_int (score : (nat -> col) -> list nat -> list nat -> list nat -> nat -> result (option R))
    (argsel : list (option R) -> option nat) (whole : bool) (nan_int : R) (steps n : nat) (mode : ModelDirect.pk_mode)
    (po : list (nat * nat)) (X : nat -> col) (U K : list nat) : result (list nat) :=
  match steps with
  | O => Ok K
  | S steps =>
      let* m := search score argsel mode po X U in
      let X' := regress_out_int whole nan_int n X U m in
      let po' := match mode with ModelDirect.Strong _ => filter (fun p => negb (fst p =? m)%nat) po | _ => po end in
      loop_int score argsel whole nan_int steps n mode po' X' (remove_nat m U) (K ++ [m])
  end.
(** 61-115 [fit] up to the causal order *)
Definition fit_order_dtype (whole : bool) (nan_int : R) (logsv : nat -> rmat -> R) (ms : ModelDirect.measure) (n p : nat)
    (pk_shape_ok : bool) (mode : ModelDirect.pk_mode) (X : nat -> nat -> R) : result (list nat) :=
  if (n =? 0)%nat || (p =? 0)%nat then Err ValueError                                  (* 77: check_array *)
  else
    let run po :=
      match ms with
      | ModelDirect.Pwling =>
          loop_int (pwling_score n) argmax whole nan_int p n mode po (fun j => Some (X j)) (seq 0 p) []
      | ModelDirect.Kernel =>
          loop_int (kernel_score logsv n) argmin false nan_int p n mode po (fun j => Some (scale n (X j))) (seq 0 p) []   (* 95-96 *)
      end in
    match mode with
    | ModelDirect.NoPK => run []
    | ModelDirect.Strong pk =>
        if pk_shape_ok then let* po := ModelDirect.extract_partial_orders p pk in run po else Err ValueError
    | ModelDirect.Soft pk => if pk_shape_ok then run [] else Err ValueError
    end.
