(** * HighDimDirectLiNGAM objects and their queries, with and without an adjacency matrix
    (lingam/high_dim_direct_lingam.py 49-114, lingam/base.py 51-121, lingam/bootstrap.py 33-61) *)
From Coq Require Import List Arith Bool ZArith QArith Qcanon.
From Verif Require Import Prelude Spec ModelDirect ModelTotal ModelRCD ModelBootstrap ModelHighDim.
Import ListNotations.
Open Scope nat_scope.

(** A data set as the fit sees it (ModelHighDim.v): number of rows, statistics and the two regressions. *)
Record hd_data := { hx_rows : nat; hx_tau0 : nat -> nat -> Qc; hx_tau : nat -> list nat -> nat -> Qc; hx_lasso : list nat -> nat -> nat -> num; hx_lassocv : list nat -> nat -> nat -> num }.
(** _causal_order and _adjacency_matrix; both None at first (base.py 31-32) *)
Record hd_obj := { ho_order : option (list nat); ho_adj : option (mat num) }.
Definition hd_new : hd_obj := {| ho_order := None; ho_adj := None |}.

Section Query.
  Variables (enum : list nat -> list nat) (J : nat) (alpha : Qc) (estimate_adj_mat : bool) (n : nat).

  (** 49-114: without estimate_adj_mat the attribute _adjacency_matrix is left as it was (104-105) *)
  Definition hd_fit_call (o : hd_obj) (x : hd_data) : hd_obj * result unit :=
    match hd_fit (hx_tau0 x) (hx_tau x) enum J alpha true (hx_lasso x) (hx_lassocv x) (hx_rows x) n estimate_adj_mat with
    | Err e => (o, Err e)
    | Ok (K, B) => ({| ho_order := Some K; ho_adj := match B with Some M => Some M | None => ho_adj o end |}, Ok tt)
    end.
  (** base.py 69-91; None has no index (72), and None[from_index] is a TypeError (82) *)
  Definition hd_total_effect (ols : list nat -> nat -> nat -> num) (o : hd_obj) (from to_ : nat) : result (num * bool) :=
    match ho_order o with
    | None => Err AttributeError
    | Some K => match index_of from K, index_of to_ K with
                | Some _, Some _ => match ho_adj o with None => Err TypeError | Some A => base_total_effect ols n K A from to_ end
                | _, _ => Err ValueError
                end
    end.
  (** base.py 107-121; np.dot(None, X.T) is a TypeError (111); [pv A i j]: the test on the errors of i and j *)
  Definition hd_p_values (pv : mat num -> nat -> nat -> num) (o : hd_obj) : result (mat num) :=
    match ho_adj o with None => Err TypeError | Some A => Ok (error_independence_p_values (pv A) n) end.
  (** bootstrap.py 50-57 for one resample: None is stored as NaN (50); calculate_total_effect(None, ...) raises ValueError in
      check_array for the first pair of the order *)
  Definition hd_sample (K : list nat) (B : option (mat num)) : result (mat num * mat num) :=
    match B with
    | Some B => let* te := total_effects_of n K B in Ok (B, te)
    | None => match K with _ :: _ :: _ => Err ValueError | _ => Ok (fun _ _ => None, fun _ _ => Some 0%Qc) end
    end.
  (** bootstrap.py 47-61 *)
  Fixpoint hd_boot_loop (o : hd_obj) (xs : list hd_data) : hd_obj * result (list (mat num * mat num)) :=
    match xs with
    | [] => (o, Ok [])
    | x :: r =>
        match hd_fit_call o x with
        | (o1, Err e) => (o1, Err e)
        | (o1, Ok _) =>
            match ho_order o1 with
            | None => (o1, Err TypeError)                                   (* 53; not reached *)
            | Some K => match hd_sample K (ho_adj o1) with
                        | Err e => (o1, Err e)
                        | Ok s => match hd_boot_loop o1 r with (o2, Ok l) => (o2, Ok (s :: l)) | (o2, Err e) => (o2, Err e) end
                        end
            end
        end
    end.
End Query.
