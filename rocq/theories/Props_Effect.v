(** * Property theorems: CausalEffect. *)
From Coq Require Import List Arith Lia Bool ZArith QArith Qcanon Permutation Relations.
From Verif Require Import Prelude Spec SpecEffect Lib LibMat ModelEffect ProofEffect.
Import ListNotations.
Open Scope nat_scope.

Definition qmat (rows : list (list Z)) : mat Qc := fun i j => qz (nth j (nth i rows []) 0%Z).
Definition qvec (l : list Z) : nat -> Qc := fun i => qz (nth i l 0%Z).

(** ** C28 *)
Theorem C28_do_means :
  forall n B K En iv v, is_order n K -> topological (edge_of n B) K -> iv < n ->
  do_solution n B En iv v (propagated n B K En iv v) /\
  forall y, do_solution n B En iv v y -> forall j, j < n -> y j = propagated n B K En iv v j.
Proof.
  intros n B K En iv v O T Hi. split; [apply propagated_solution; assumption|].
  intros y Hy. apply (do_solution_unique n B En iv v); try assumption;
    [apply (topological_acyclic _ K); [apply (is_order_NoDup n); exact O|exact T]|apply propagated_solution; assumption].
Qed.
Print Assumptions C28_do_means.
Theorem C28_observed_means_are_fixed :
  forall n B K Ex iv, is_order n K -> topological (edge_of n B) K -> iv < n ->
  explains n B Ex (noise_means n B Ex) /\
  forall j, j < n -> propagated n B K (noise_means n B Ex) iv (Ex iv) j = Ex j.
Proof. split; [apply noise_explains|apply propagated_observed; assumption]. Qed.
Print Assumptions C28_observed_means_are_fixed.
Theorem C28_shift_by_total_effect :
  forall n B K En iv v d T, is_order n K -> topological (edge_of n B) K -> iv < n ->
  meq n (mmul n (msub midn B) T) midn ->
  forall j, j < n -> propagated n B K En iv (v + d)%Qc j = (propagated n B K En iv v j + d * T j iv)%Qc.
Proof. exact propagated_shift. Qed.
Print Assumptions C28_shift_by_total_effect.
(** For a linear predictor both reported effects are |std * sum_j coef_j T_ji|. *)
Theorem C28_effects_of_linear_predictor :
  forall n B K Ex sd target c b T,
  is_order n K -> topological (edge_of n B) K -> meq n (mmul n (msub midn B) T) midn ->
  effects_on_prediction n B K Ex sd target (fun xs => lin_list (others n target c) xs + b)%Qc =
  map (fun i => let e := qabs (sd i * sumn n (fun j => if j =? target then 0 else c j * T j i))%Qc in (e, e)) (seq 0 n).
Proof. exact linear_effects. Qed.
Print Assumptions C28_effects_of_linear_predictor.

Definition chain3 : mat Qc := qmat [[0; 0; 0]; [2; 0; 0]; [1; 3; 0]]%Z.
Example C28_example :
  is_order 3 [0; 1; 2] /\ topological (edge_of 3 chain3) [0; 1; 2] /\
  map (fun j => this (propagated 3 chain3 [0; 1; 2] (qvec [1; 1; 1]%Z) 1 (qz 10) j)) [0; 1; 2]
    = [1; 10; 32]%Q.
Proof.
  split; [apply Permutation_refl|]. split; [|vm_compute; reflexivity].
  intros a b [Hb [Ha H]].
  assert (precedes [0; 1; 2] 0 1) by (exists [], [], [2]; reflexivity).
  assert (precedes [0; 1; 2] 0 2) by (exists [], [1], []; reflexivity).
  assert (precedes [0; 1; 2] 1 2) by (exists [0], [], []; reflexivity).
  destruct b as [|[|[|b]]]; destruct a as [|[|[|a]]]; try lia; try assumption;
    exfalso; apply H; reflexivity.
Qed.

(** ** C29 *)
Theorem C29_desired_output_is_reached_partial :
  forall n B Ex target coef b iv desired draws T,
  iv < n -> target < n -> length coef = n - 1 ->
  acyclic (edge_of n B) ->
  (forall k, k < n -> k <> iv -> sumn n (B k) = 0%Qc -> forall q, q < n -> B k q = 0%Qc) ->
  meq n (mmul n (msub midn B) T) midn ->
  let p := {| p_coef := Some coef; p_intercept := Some b; p_proba := false |} in
  let infl := sumn n (fun j => if j =? target then 0 else coef_at target coef j * T j iv)%Qc in
  match optimal_intervention n B Ex target p iv desired draws with
  | Err _ => False
  | Ok None => True
  | Ok (Some None) => infl = 0%Qc
  | Ok (Some (Some c)) => infl <> 0%Qc /\
      forall x, do_solution n B (noise_means n B Ex) iv c x ->
        lin_pred n target (coef_at target coef) b x = desired
  end.
Proof. exact optimal_intervention_spec. Qed.
Print Assumptions C29_desired_output_is_reached_partial.
Theorem C29_independent_of_visiting_order_partial :
  forall n B Ex target p iv desired draws draws' r r',
  iv < n -> acyclic (edge_of n B) ->
  (forall k, k < n -> k <> iv -> sumn n (B k) = 0%Qc -> forall q, q < n -> B k q = 0%Qc) ->
  optimal_intervention n B Ex target p iv desired draws = Ok (Some r) ->
  optimal_intervention n B Ex target p iv desired draws' = Ok (Some r') -> r = r'.
Proof. exact optimal_intervention_schedule. Qed.
Print Assumptions C29_independent_of_visiting_order_partial.
Theorem C29_every_run_can_finish_partial :
  forall n B Ex target coef b iv desired draws,
  iv < n -> target < n -> length coef = n - 1 -> acyclic (edge_of n B) ->
  (forall k, k < n -> k <> iv -> sumn n (B k) = 0%Qc -> forall q, q < n -> B k q = 0%Qc) ->
  let p := {| p_coef := Some coef; p_intercept := Some b; p_proba := false |} in
  exists more r, optimal_intervention n B Ex target p iv desired (draws ++ more) = Ok (Some r).
Proof. exact optimal_intervention_can_finish. Qed.
Print Assumptions C29_every_run_can_finish_partial.

(** Two schedules on the chain 0 -> 1 -> 2, 0 -> 2: one lucky, one with a wasted draw. *)
Definition pred3 : predictor := {| p_coef := Some [qz 1; qz 1]; p_intercept := Some (qz 3); p_proba := false |}.
Definition shown (r : result (option num)) : result (option (option Q)) :=
  match r with Ok o => Ok (option_map (option_map this) o) | Err e => Err e end.
Example C29_example :
  shown (optimal_intervention 3 chain3 (qvec [1; 3; 11]%Z) 2 pred3 0 (qz 12) [0; 0]) = Ok (Some (Some (8 # 3)%Q)) /\
  shown (optimal_intervention 3 chain3 (qvec [1; 3; 11]%Z) 2 pred3 0 (qz 12) [1; 0; 5]) = Ok (Some (Some (8 # 3)%Q)) /\
  shown (optimal_intervention 3 chain3 (qvec [1; 3; 11]%Z) 2 pred3 0 (qz 12) [1]) = Ok None /\
  (forall k, k < 3 -> k <> 0 -> sumn 3 (chain3 k) = 0%Qc -> forall q, q < 3 -> chain3 k q = 0%Qc).
Proof.
  split; [vm_compute; reflexivity|]. split; [vm_compute; reflexivity|]. split; [vm_compute; reflexivity|].
  intros k Hk D S. exfalso. destruct k as [|[|[|k]]]; try lia;
    apply (f_equal this) in S; vm_compute in S; discriminate.
Qed.

(** x2 = x0 - x1: the row sum cancels, so x2 is treated as a root although x0 influences it;
    the returned value misses the desired output. *)
Definition cancel : mat Qc := qmat [[0; 0; 0; 0]; [0; 0; 0; 0]; [1; -1; 0; 0]; [0; 0; 0; 0]]%Z.
Theorem C29_cancelling_row_refuted :
  exists c, 
    optimal_intervention 4 cancel (fun _ => 0%Qc) 3
      {| p_coef := Some [1; 0; 1]%Qc; p_intercept := Some 0%Qc; p_proba := false |} 0 (qz 2) [] = Ok (Some (Some c)) /\
    topological (edge_of 4 cancel) [0; 1; 2; 3] /\
    lin_pred 4 3 (coef_at 3 [1; 0; 1]%Qc) 0%Qc
      (propagated 4 cancel [0; 1; 2; 3] (noise_means 4 cancel (fun _ => 0%Qc)) 0 c) = qz 4 /\ qz 4 <> qz 2.
Proof.
  eexists. split; [vm_compute; reflexivity|]. split.
  - intros a b [Hb [Ha H]].
    destruct (Nat.eq_dec b 2) as [->|D].
    + destruct a as [|[|[|[|a]]]]; try lia; try (exfalso; apply H; reflexivity).
      * exists [], [1], [3]. reflexivity.
      * exists [0], [], [3]. reflexivity.
    + exfalso. apply H. destruct b as [|[|[|[|b]]]]; try lia; destruct a as [|[|[|[|a]]]]; try lia; reflexivity.
  - split; [apply Qc_is_canon; vm_compute; reflexivity|]. intro E. apply (f_equal this) in E. vm_compute in E. discriminate.
Qed.
Print Assumptions C29_cancelling_row_refuted.

(** ** C67 *)
Theorem C67_answers_use_the_first_requested_fit_partial :
  forall (M : Type) (evs : list (ce_event M)) (m0 : M) pre,
  evs = map Refit pre ++ Request :: skipn (S (length pre)) evs ->
  Forall (fun a => a = last (m0 :: pre) m0) (ce_run m0 None evs).
Proof.
  intros M evs m0 pre E.
  assert (forall r m c, Forall (fun a : M => a = c) (ce_run m (Some c) r)) as G.
  { induction r as [|[m'|] r IH]; intros m c; cbn [ce_run]; [constructor|apply IH|].
    constructor; [reflexivity|apply IH]. }
  rewrite E. generalize (skipn (S (length pre)) evs). clear E evs. intro evs.
  assert (forall p m, ce_run m None (map Refit p ++ Request :: evs) = last (m :: p) m0 :: ce_run (last (m :: p) m0) (Some (last (m :: p) m0)) evs) as H.
  { induction p as [|a p IH]; intro m; [reflexivity|]. cbn [map app ce_run]. rewrite IH. reflexivity. }
  rewrite H. constructor; [reflexivity|apply G].
Qed.
Print Assumptions C67_answers_use_the_first_requested_fit_partial.
Theorem C67_refitted_model_is_ignored_refuted :
  ce_run 1 None [Request; Refit 2; Request] = [1; 1].
Proof. reflexivity. Qed.
Print Assumptions C67_refitted_model_is_ignored_refuted.
Example C67_example :
  [Refit 5; Request; Refit 2; Request] = map Refit [5] ++ Request :: skipn 2 [Refit 5; Request; Refit 2; Request].
Proof. reflexivity. Qed.
