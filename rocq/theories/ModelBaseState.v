(** * Objects whose fit stores the causal order before the adjacency matrix, when the adaptive lasso may raise

    DirectLiNGAM and ICALiNGAM (direct_lingam.py 61-116, ica_lingam.py 38-73, base.py 30-32, 123-159) and MultiGroupDirectLiNGAM
    (multi_group_direct_lingam.py 52-105, 192-270).  In ModelDirect.v the adaptive lasso never raises. *)
From Coq Require Import List Arith Bool ZArith QArith Qcanon.
From Verif Require Import Prelude Spec ModelDirect.
Import ListNotations.
Open Scope nat_scope.

Section Base.
  Variable D : Type.                                         (* data sets *)
  (** everything up to the assignment of _causal_order: checks of the arguments and the search, or the exception raised there
      (direct_lingam.py 76-114; ica_lingam.py 51-70) *)
  Variable search : D -> result (list nat).
  (** predict_adaptive_lasso(X, predictors, target) (utils/__init__.py 750-788): coefficients by predictor, or an exception *)
  Variable lasso : D -> list nat -> nat -> result (nat -> num).
  Variable pk : option (mat num).                            (* _Aknw; None for ICALiNGAM *)

  (** 144-156; [before] = order[:i] *)
  Fixpoint est_loop (d : D) (before rest : list nat) (B : mat num) : result (mat num) :=
    match rest with
    | [] => Ok B
    | target :: rest' =>
        let* B' := match before with
                   | [] => Ok B
                   | _ => match predictors_of pk target before with
                          | [] => Ok B
                          | ps => let* c := lasso d ps target in
                                  Ok (fun i j => if (i =? target) && memb j ps then c j else B i j)
                          end
                   end in
        est_loop d (before ++ [target]) rest' B'
    end.
  Definition est (d : D) (order : list nat) : result (mat num) := est_loop d [] order (fun _ _ => Some 0%Qc).

  (** base.py 31-32 *)
  Record base_obj := { bo_order : option (list nat); bo_adj : option (mat num) }.
  Definition base_new : base_obj := {| bo_order := None; bo_adj := None |}.
  (** The object after fit(X) and what the call returned *)
  Definition base_fit (o : base_obj) (d : D) : base_obj * result unit :=
    match search d with
    | Err e => (o, Err e)
    | Ok K =>                                                 (* direct_lingam.py 115, ica_lingam.py 71 *)
        match est d K with
        | Err e => ({| bo_order := Some K; bo_adj := bo_adj o |}, Err e)
        | Ok B => ({| bo_order := Some K; bo_adj := Some B |}, Ok tt)   (* base.py 158 *)
        end
    end.
  (** a sequence of calls of fit *)
  Fixpoint base_calls (o : base_obj) (ds : list D) : base_obj :=
    match ds with [] => o | d :: ds' => base_calls (fst (base_fit o d)) ds' end.

  (** ** MultiGroupDirectLiNGAM *)
  Variable mg_search : list D -> result (list nat).           (* 67-98 *)
  Record mg_obj := { mo_order : option (list nat); mo_adjs : list (mat num) }.
  (** 101-104: the matrices stored so far and the exception, if any *)
  Fixpoint mg_matrices (K : list nat) (ds : list D) : list (mat num) * result unit :=
    match ds with
    | [] => ([], Ok tt)
    | d :: ds' => match est d K with
                  | Err e => ([], Err e)
                  | Ok B => let '(l, r) := mg_matrices K ds' in (B :: l, r)
                  end
    end.
  Definition mg_fit_calls (o : mg_obj) (ds : list D) : mg_obj * result unit :=
    match mg_search ds with
    | Err e => (o, Err e)
    | Ok K => let '(l, r) := mg_matrices K ds in ({| mo_order := Some K; mo_adjs := l |}, r)
    end.
  (** 233-238: one effect per stored matrix; [effect] is calculate_total_effect, ModelTotal.v *)
  Definition mg_effects (effect : mat num -> num) (o : mg_obj) : list num := map effect (mo_adjs o).
  (** 192-206: the regressions of zip(X_list, _adjacency_matrices); [reg] is the coefficient of the source *)
  Definition mg_regressions (reg : D -> mat num -> num) (ds : list D) (o : mg_obj) : list num := map (fun p => reg (fst p) (snd p)) (combine ds (mo_adjs o)).
  (** 258-270: one matrix of zeros per data set given, filled for the pairs of zip(X_list, _adjacency_matrices) *)
  Fixpoint mg_p_values (pvals : D -> mat num -> mat num) (ds : list D) (adjs : list (mat num)) : list (mat num) :=
    match ds, adjs with
    | [], _ => []
    | d :: ds', [] => (fun _ _ => Some 0%Qc) :: mg_p_values pvals ds' []
    | d :: ds', B :: adjs' => pvals d B :: mg_p_values pvals ds' adjs'
    end.
End Base.
