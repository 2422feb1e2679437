(** * Properties of BottomUpParceLiNGAM: units, origins and the order of the rows (C176) *)
From Coq Require Import List Arith Bool ZArith QArith Qcanon Lia Permutation.
From Verif Require Import Prelude Spec SpecPop SpecRCDPop SpecUnits Lib LibMat ProofPop ModelParce ModelParcePop OlsGS ProofUnits ProofRCDUnits ProofParceUnits Props_RCDPop Props_ParcePop Props_RCDUnits.
Import ListNotations.
Open Scope nat_scope.

(** C176.  If the statistic and p-value of HSIC and the F-correlation do not depend on units, origins and the order of the
    rows (C91, C92, C154), neither does causal_order_, errors included; and if the coefficients of the adaptive lasso are
    those of the new units (C162), so is the whole matrix, with NaN in the same places. *)
Theorem C176_parce_units :
  forall N n s a X X' ols hsic fco m2log sf thr ind_corr mode lasso lasso',
  0 < N -> rearranges N s -> same_data N s a X X' -> solves_least_squares N ols -> invariant2 N hsic -> invariant2 N fco ->
  (forall ps t p, lasso' ps t p = option_map (fun b => a t * b / a p)%Qc (lasso ps t p)) ->
  match parce_data_fit N ols hsic fco m2log sf thr ind_corr mode lasso X n, parce_data_fit N ols hsic fco m2log sf thr ind_corr mode lasso' X' n with
  | Ok (order, B), Ok (order', B') => order' = order /\ forall i j, B' i j = option_map (fun b => a i * b / a j)%Qc (B i j)
  | Err e, Err e' => e' = e
  | _, _ => False
  end.
Proof.
  intros N n s a X X' ols hsic fco m2log sf thr ind_corr mode lasso lasso' HN HS SD OLS HH FF LL.
  pose proof (centred_units N s a X X' HN HS SD) as SC.
  assert (RS : forall t ps, NoDup ps -> exists b, in_unit N s (a t) b (parce_resid N ols X t ps) (parce_resid N ols X' t ps)).
  { intros t ps ND. apply (residual_units N s a (centred N X) (centred N X') t ps _ _ HN HS SC (OLS _ ps _ ND) (OLS _ ps _ ND)). }
  assert (T2 : forall A (t : sample -> sample -> A), invariant2 N t -> forall i t0 ps, NoDup ps -> t (centred N X i) (parce_resid N ols X t0 ps) = t (centred N X' i) (parce_resid N ols X' t0 ps)).
  { intros A t T i t0 ps ND. destruct (SC i) as (Ni & b & I). destruct (RS t0 ps ND) as (b' & I'). symmetry. apply (T s (a i) b _ _ (a t0) b' _ _ HS Ni (proj1 (SC t0)) I I'). }
  unfold parce_data_fit.
  rewrite (parce_fit_same (fun t ps i => hsic (centred N X i) (parce_resid N ols X t ps)) (fun t ps i => hsic (centred N X' i) (parce_resid N ols X' t ps))
    (fun t ps i => fco (centred N X i) (parce_resid N ols X t ps)) (fun t ps i => fco (centred N X' i) (parce_resid N ols X' t ps)) m2log sf thr ind_corr mode)
    by (intros t ps i ND; apply T2; assumption).
  set (h := fun t ps i => hsic (centred N X' i) (parce_resid N ols X' t ps)). set (f := fun t ps i => fco (centred N X' i) (parce_resid N ols X' t ps)). clearbody h f.
  unfold parce_fit. cbn [bind]. destruct (n =? 1); [reflexivity|]. destruct (search_order h f m2log sf thr ind_corr mode n None (seq 0 n) []) as [K|e]; cbn [bind]; [|reflexivity].
  split; [reflexivity|]. intros i j. apply (adjacency_units a lasso lasso' LL).
Qed.
Print Assumptions C176_parce_units.

(** The data of C174_example with tests built from covariances. *)
Definition unit_fc (y z : sample) : num := Some (if square_test 8 y z then 0%Qc else 1%Qc).
Definition unit_hsic (y z : sample) : num * num := (unit_fc y z, Some (if square_test 8 y z then qf 1 2 else qf 1 100)).
Example C176_example_invariant : invariant2 8 unit_hsic /\ invariant2 8 unit_fc /\ same_data 8 (fun r => 7 - r) ua ux ux'.
Proof.
  assert (S := square_test_invariant 8 ltac:(lia)). split; [|split; [|apply C174_example]].
  - intros s a b x y a' b' x' y' HS Ha Ha' I I'. unfold unit_hsic, unit_fc. rewrite (S s a b x y a' b' x' y' HS Ha Ha' I I'). reflexivity.
  - intros s a b x y a' b' x' y' HS Ha Ha' I I'. unfold unit_fc. rewrite (S s a b x y a' b' x' y' HS Ha Ha' I I'). reflexivity.
Qed.
Example C176_example_fits :
  let fit mode x := px_show 3 (parce_data_fit 8 (gs 8) unit_hsic unit_fc px_log px_sf (qf 1 20) (qf 1 2) mode (px_lasso x) x 3) in
  fit Fcorr ux = ([Single 0; Single 2; Single 1], [[Some 0; Some 0; Some 0]; [Some 1; Some 0; Some 0]; [Some 1; Some 0; Some 0]]%Q) /\
  fit Fcorr ux' = ([Single 0; Single 2; Single 1], [[Some 0; Some 0; Some 0]; [Some (-1000 # 1); Some 0; Some 0]; [Some (-9 # 5); Some 0; Some 0]]%Q) /\
  fst (fit Hsic ux') = fst (fit Hsic ux).
Proof. vm_compute. auto. Qed.
