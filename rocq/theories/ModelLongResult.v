(** * Model of lingam/longitudinal_lingam.py: LongitudinalBootstrapResult (486-879),
    estimate_total_effect (259-317) and get_error_independence_p_values (375-402).

    A sample is [m t tau i j]: the adjacency matrices of one bootstrap sample (T time points,
    L + 1 lags, p variables). *)
From Coq Require Import List Arith Bool ZArith QArith Qcanon.
From Verif Require Import Prelude Spec ModelPaths ModelBootstrap ModelLong ModelDirect ModelTotal ModelQuery.
Import ListNotations.
Open Scope nat_scope.

Definition long_sample := nat -> nat -> mat num.
(** 581, 667: np.concatenate([*m[t]], axis=1): the matrices of time [t] side by side. *)
Definition long_concat (p : nat) (m : long_sample) (t : nat) : mat num := fun i c => m t (c / p) i (c mod p).

(** 577-614, one time point after the other.  Without samples np.concatenate([]) (592) is a
    ValueError. *)
Fixpoint map_result {A B} (f : A -> result B) (l : list A) : result (list B) :=
  match l with [] => Ok [] | x :: r => let* y := f x in let* ys := map_result f r in Ok (y :: ys) end.
(** 527-614 *)
Definition long_direction_counts (argsort : list Qc -> list nat) (p L T : nat) (ms : list long_sample)
    (n_directions : option Z) (min_ce : option Qc) (split : bool) : result (list (list (direction * nat))) :=
  let* k := check_top n_directions in                                       (* 557-563 *)
  let* m := check_min min_ce in                                             (* 565-569 *)
  map_result (fun t =>
    match ms with
    | [] => Err ValueError
    | _ => get_causal_direction_counts argsort p (p * (L + 1)) (map (fun s => long_concat p s t) ms) n_directions min_ce split
    end) (seq 0 T).
(** 616-697 *)
Definition long_dag_counts (argsort : list Qc -> list nat) (p L T : nat) (ms : list long_sample)
    (n_dags : option Z) (min_ce : option Qc) (split : bool) : result (list (list (list direction * nat))) :=
  let* k := check_top n_dags in                                             (* 643-649 *)
  let* m := check_min min_ce in                                             (* 651-655 *)
  map_result (fun t =>
    get_directed_acyclic_graph_counts argsort p (p * (L + 1)) (map (fun s => long_concat p s t) ms) n_dags min_ce split)
    (seq 0 T).
(** 699-726; entry [t, tau, i, j] *)
Definition long_probabilities (ms : list long_sample) (min_ce : option Qc) : result (nat -> nat -> mat Qc) :=
  let* m := check_min min_ce in                                             (* 714-718 *)
  match ms with
  | [] => Err IndexError                                                    (* 720 *)
  | _ => Ok (fun t tau i j => (qn (length (filter (fun s : long_sample => above m (s t tau) i j) ms)) / qn (length ms))%Qc)
  end.
(** 728-786: the code of bootstrap.py 312-370 on the (T*p) x (T*p) matrices of total effects. *)
Definition long_total_effects (argsort : list Qc -> list nat) (p T : nat) (tes : list (mat Qc)) (min_ce : option Qc) :=
  get_total_causal_effects argsort (T * p) (T * p) tes min_ce.
(** 788-879.  838: am[t, tau] is an IndexError when to_t is not a time point. *)
Definition long_get_paths (argsort : list Qc -> list nat) (p L T : nat) (ms : list long_sample)
    (from to_ from_t to_t : nat) (min_ce : option Qc) : result (list (list nat * num * Qc)) :=
  let* m := check_min min_ce in                                             (* 817-821 *)
  if to_t <? from_t then Err ValueError                                     (* 822-823 *)
  else if (to_t =? from_t) && (to_ =? from) then Err ValueError             (* 824-826 *)
  else
    let n_t := to_t - from_t + 1 in
    match ms with
    | [] => get_paths argsort (p * n_t) [] from (p * (to_t - from_t) + to_) min_ce
    | _ =>
        if T <=? to_t then Err IndexError
        else get_paths argsort (p * n_t) (map (fun s => long_expansion p L s from_t n_t) ms)
               from (p * (to_t - from_t) + to_) min_ce                      (* 831-850 *)
    end.

(** ** Total effects by regression (259-317) *)
(** 297-301: the columns of X_joined: time [to_t], then times from_t, from_t - 1, ..., from_t - L;
    a negative time counts from the end ([T + from_t - tau]). *)
Definition joined_col (p T : nat) (X : panel) (from_t to_t : nat) (c : nat) : nat -> Qc :=
  if c <? p then fun s => X to_t s c
  else let tau := (c - p) / p in
       fun s => X (if tau <=? from_t then from_t - tau else T + from_t - tau) s ((c - p) mod p).
(** 303-309: the positions of the predictors in X_joined *)
Definition long_predictors (p L : nat) (am : nat -> mat num) (from : nat) : list nat :=
  from + p :: map (fun c => c + p)
    (filter (fun c => match am (c / p) from (c mod p) with Some w => qltb 0 (qabs w) | None => false end) (seq 0 (p * (L + 1)))).
(** 280-317; [lr cols y]: the coefficients of LinearRegression.  The warnings are not modelled
    (the list.index calls of 282-283 are: they are ValueErrors for indices not in the order). *)
Definition long_estimate_total_effect (lr : list (nat -> Qc) -> (nat -> Qc) -> nat -> Qc) (p L T : nat) (X : panel)
    (adj : long_sample) (orders : nat -> list (option nat)) (from_t from to_t to_ : nat) : result Qc :=
  if (to_t =? from_t) && negb (opt_mem (Some from) (orders to_t) && opt_mem (Some to_) (orders from_t)) then Err ValueError
  else Ok (lr (map (joined_col p T X from_t to_t) (long_predictors p L (adj from_t) from)) (joined_col p T X from_t to_t to_) 0).

(** ** Residuals after fit and p-values *)
(** 83-192: the attribute _residuals exists only after a fit without prior knowledge (109-111). *)
Definition long_fit_residuals (prior_knowledge : bool) (old : option (nat -> mat num)) (new : nat -> mat num) : option (nat -> mat num) :=
  if prior_knowledge then old else Some new.
(** 375-402: [pv]: the HSIC test on two columns; times 1, ..., T-1 are tested, time 0 is NaN. *)
Definition long_error_col (p : nat) (B : mat num) (R : mat num) (i s : nat) : num :=
  nsum (map (fun j => nmul (nsub (Some (if i =? j then 1 else 0)%Qc) (B i j)) (R s j)) (seq 0 p)).
Definition long_p_values (pv : (nat -> num) -> (nat -> num) -> num) (p : nat) (adj : long_sample)
    (resid : option (nat -> mat num)) : result (nat -> mat num) :=
  match resid with
  | None => Err AttributeError                                              (* 384 *)
  | Some R => Ok (fun t =>
      if t =? 0 then fun _ _ => None
      else error_independence_p_values (fun i j => pv (long_error_col p (adj t 0) (R t) i) (long_error_col p (adj t 0) (R t) j)) p)
  end.
