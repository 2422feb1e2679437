(** * Model of lingam/tools/__init__.py 20-166 and 288-320 when neither an imputer nor a discovery
    model is given: the default imputer and MultiGroupDirectLiNGAM. *)
From Coq Require Import List Arith Bool ZArith QArith Qcanon.
From Verif Require Import Prelude Spec ModelBootstrap ModelDirect ModelTools.
Import ListNotations.
Open Scope nat_scope.

Section Default.
  Context {Col : Type}.
  (** The residual, the score of a candidate over all groups, the regressions of predict_adaptive_lasso
      on data set [g] of the imputed data sets [d], and the reading of a data set as columns.  A
      regression that raises is not modelled. *)
  Variable residual : Col -> Col -> Col.
  Variable gM : (nat -> Col) -> list nat -> list nat -> list nat -> nat -> num.
  Variable lasso : (nat -> nat -> nat -> Qc) -> nat -> list nat -> nat -> nat -> num.
  Variable to_cols : (nat -> nat -> Qc) -> nat -> Col.
  Variable fill : nat -> nat -> mat num -> nat -> nat -> Qc.
  Variable draw : nat -> nat -> nat.

  (** 304-320 with multi_group_direct_lingam.py 67-104 and 272-290: at least two data sets (277-278);
      the data sets are finite and of one shape here. *)
  Definition default_cd (mode : pk_mode) (n p k : nat) (d : nat -> nat -> nat -> Qc) : result cd_out :=
    if k <? 2 then Err ValueError
    else let* K := mg_fit_order residual gM p true mode (map (fun g => (n, to_cols (d g))) (seq 0 k)) in
         Ok (Pair (O1 (map (fun v => Some (qn v)) K))
                  {| ao_pre := [k]; ao_rows := p; ao_cols := p;
                     ao_val := fun ix => mg_adjacency (lasso d) (pk_of_mode mode) K (hd 0 ix) |}).

  (** 131-160 *)
  Definition default_iterate (mode : pk_mode) (n p reps : nat) (X : mat num) (s : nat) : result iteration :=
    let S := fun r c => X (draw s r) c in                                                    (* 133-134 *)
    let* (k, d) := check_imputer (default_imp fill n p reps s S) n p in                      (* 140-141 *)
    let* out := default_cd mode n p k d in                                                   (* 146 *)
    let* (o, a) := check_cd out k p in                                                       (* 147 *)
    Ok {| it_index := draw s; it_sample := S; it_reps := k; it_data := d; it_order := o; it_adj := a;
          it_imp := imputation_result S d |}.
  Fixpoint default_run (mode : pk_mode) (n p reps : nat) (X : mat num) (l : list nat) : result (list iteration) :=
    match l with
    | [] => Ok []
    | s :: l => let* it := default_iterate mode n p reps X s in
                let* r := default_run mode n p reps X l in Ok (it :: r)
    end.
  (** 86-166: [pk_shape_ok] is whether the prior knowledge, if any, is of shape (p, p). *)
  Definition boot_default (pk_shape_ok : bool) (mode : pk_mode) (n p reps : nat) (X : mat num) (N : nat) : result (list iteration) :=
    if (n =? 0) || (p =? 0) then Err ValueError                                              (* 86 *)
    else if N =? 0 then Err ValueError                                                       (* 88-93 *)
    else if reps =? 0 then Err ValueError                                                    (* 95-100 *)
    else if negb pk_shape_ok then Err ValueError                                             (* 109-112 *)
    else let* l := default_run mode n p reps X (seq 0 N) in
         match l with
         | [] => Ok []
         | it :: r => if forallb (same_shapes it) r then Ok l else Err ValueError            (* 161-164 *)
         end.
End Default.
