(** * The VARMALiNGAM object when calls fail (lingam/varma_lingam.py 79-222)

    ModelVarma.v has the computations and the object after successful calls; here every call returns the object it leaves behind, also
    when it raises. *)
From Coq Require Import List Arith Bool ZArith QArith Qcanon.
From Verif Require Import Prelude Spec ModelVAR ModelVarma.
Import ListNotations.
Open Scope nat_scope.

(** The object and its results _causal_order and _adjacency_matrices (None: not fitted). *)
Definition outcome := (list nat * (list (mat Qc) * list (mat Qc)))%type.
Record varma_state := { ws_obj : varma_obj; ws_result : option outcome }.

Section State.
  Variable n : nat.
  Variable prune : bool.
  Variable varmax : nat -> series -> nat * nat -> list (mat Qc) * list (mat Qc) * series.
  Variable value : nat -> series -> nat * nat -> num.
  Variable lingam : nat -> series -> list nat * mat Qc.
  Variable lasso : nat -> (nat -> nat -> Qc) -> list nat -> nat -> nat -> Qc.

  (** 92-138 [fit]: the results are reset first (92-93); the settings are written only at the end (130-136) *)
  Definition fit_state (noise : series) (s : varma_state) (N : nat) (X : series) : varma_state * result unit :=
    match varma_fit n prune varmax value lingam lasso noise (ws_obj s) N X with
    | Ok (w, r) => ({| ws_obj := w; ws_result := Some r |}, Ok tt)
    | Err e => ({| ws_obj := ws_obj s; ws_result := None |}, Err e)
    end.
  (** 166 *)
  Definition set_criterion (c : bool) (w : varma_obj) : varma_obj :=
    {| wo_order := wo_order w; wo_criterion := c; wo_ar := wo_ar w; wo_ma := wo_ma w; wo_rows := wo_rows w; wo_resid := wo_resid w |}.
  (** 196-197 *)
  Definition set_coefs (ar ma : option (list (mat Qc))) (w : varma_obj) : varma_obj :=
    {| wo_order := wo_order w; wo_criterion := wo_criterion w; wo_ar := ar; wo_ma := ma; wo_rows := wo_rows w; wo_resid := wo_resid w |}.
  Definition with_obj (w : varma_obj) (s : varma_state) : varma_state := {| ws_obj := w; ws_result := ws_result s |}.
  (** 176-204; [draws] as in ModelVarma.v *)
  Fixpoint boot_loop_state (AR MA ar0 ma0 : option (list (mat Qc))) (pq : nat * nat) (s : varma_state) (N : nat) (draws : list ((nat -> nat) * series)) :
      varma_state * result (list (series * (list (mat Qc) * list (mat Qc)))) :=
    match draws with
    | [] => (s, Ok [])
    | (d, noise) :: ds =>
        let start := Nat.max (fst pq) (snd pq) in
        let e := fun j => wo_resid (ws_obj s) (d j) in
        match (if N <=? start then Ok (varma_resampled n [] [] start e N)
               else match AR, MA with Some A, Some M => Ok (varma_resampled n A M start e N) | _, _ => Err TypeError end) with
        | Err x => (s, Err x)                                                                               (* 186-191: before 196 *)
        | Ok Xs =>
            match fit_state noise (with_obj (set_coefs ar0 ma0 (ws_obj s)) s) N Xs with
            | (s', Err x) => (s', Err x)
            | (s', Ok _) =>
                match ws_result s' with
                | None => (s', Err TypeError)                                                               (* 201; not reached *)
                | Some (_, po) => match boot_loop_state AR MA ar0 ma0 pq s' N ds with (s'', Ok rest) => (s'', Ok ((Xs, po) :: rest)) | (s'', Err x) => (s'', Err x) end
                end
            end
        end
    end.
  (** 139-223 [bootstrap] (matrices only); [valid]: check_array accepts X (155) *)
  Definition bootstrap_state (noise : series) (s : varma_state) (valid : bool) (N : nat) (X : series) (draws : list ((nat -> nat) * series)) :
      varma_state * result (list (series * (list (mat Qc) * list (mat Qc)))) :=
    if negb valid then (s, Err ValueError) else
    match fit_state noise (with_obj (set_criterion false (ws_obj s)) s) N X with
    | (s1, Err x) => (s1, Err x)
    | (s1, Ok _) =>
        match boot_loop_state (wo_ar (ws_obj s1)) (wo_ma (ws_obj s1)) (wo_ar (ws_obj s)) (wo_ma (ws_obj s)) (wo_order (ws_obj s)) s1 N draws with
        | (s2, Err x) => (s2, Err x)
        | (s2, Ok l) => (with_obj (set_criterion (wo_criterion (ws_obj s)) (ws_obj s2)) s2, Ok l)           (* 221 *)
        end
    end.
End State.
