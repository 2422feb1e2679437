(** * RESIT and the units of the variables (C206) *)
From Coq Require Import Reals Lra Lia Arith Bool List ZArith QArith Qcanon FunctionalExtensionality.
From Verif Require Import Prelude Lib LibR SpecMeasure ModelKernel ModelMlHsic ModelDirectR ModelResit ProofInterval ModelResitR SpecResitR ProofResitR ProofResitI.
Import ListNotations.
Open Scope R_scope.

(** A common unit and individual origins do not matter, for regressors whose predictions do not depend on units. *)
Theorem C206_common_unit_partial : forall gamma_sf reg alpha n X a b p, unit_free reg -> a <> 0 ->
  resit_R gamma_sf reg alpha n (rescaled (fun _ => a) b X) p = resit_R gamma_sf reg alpha n X p.
Proof. intros gamma_sf reg alpha n X a b p UF Ha. apply same_tests. intros L k. apply (residual_test_moved gamma_sf reg n X (fun _ => a) b UF (fun _ => Ha) L k a Ha). reflexivity. Qed.

(** For two variables each may have its own unit. *)
Theorem C206_two_variables : forall gamma_sf reg alpha n X a b, unit_free reg -> (forall j, a j <> 0) ->
  resit_R gamma_sf reg alpha n (rescaled a b X) 2 = resit_R gamma_sf reg alpha n X 2.
Proof.
  intros gamma_sf reg alpha n X a b UF Ha. apply same_pair_tests. intros j k. apply (residual_test_moved gamma_sf reg n X a b UF Ha [j] k (a j) (Ha j)). intros i [-> | []]. reflexivity.
Qed.

(** The unit of the target of a regression does not matter: only units within a block of predictors do. *)
Theorem C206_unit_of_the_target : forall gamma_sf reg n X a b L k c, unit_free reg -> (forall j, a j <> 0) -> (forall j, In j L -> a j = c) ->
  residual_test gamma_sf reg n (rescaled a b X) L k = residual_test gamma_sf reg n X L k.
Proof.
  intros gamma_sf reg n X a b L k c UF Ha HL. destruct L as [|j L].
  - apply (residual_test_moved gamma_sf reg n X a b UF Ha [] k 1 R1_neq_R0). intros j [].
  - apply (residual_test_moved gamma_sf reg n X a b UF Ha (j :: L) k c); [|exact HL]. rewrite <- (HL j (or_introl eq_refl)). apply Ha.
Qed.

(** The regressor that predicts the mean (sklearn's DummyRegressor) is unit free. *)
Definition mean_regressor (n : nat) (rows : nat -> list R) (y : nat -> R) (row : list R) : R := average n y.
Example C206_example_regressor : unit_free mean_regressor.
Proof.
  intros n rows y row ab c d Hn _ _. unfold mean_regressor, average. rewrite rsum_plus, rsum_scal, rsum_const. field. apply not_0_INR. lia.
Qed.

(** With more than three rows nothing raises, and the first variable chosen ends the order. *)
Lemma hsic_ok : forall sf n m m' Y Z, (3 < n)%nat -> exists t, hsic_test sf n m m' Y Z = Ok t.
Proof. intros sf n m m' Y Z H. unfold hsic_test. destruct (Nat.leb_spec n 3); [lia|]. destruct (block_width n m Y); [|eexists; reflexivity]. destruct (block_width n m' Z); eexists; reflexivity. Qed.
Lemma pair_stats : forall sf reg n X j k, (3 < n)%nat -> exists u v, order_stats sf reg n X [j; k] = Ok [u; v].
Proof.
  intros sf reg n X j k H. unfold order_stats. cbn [traverse]. unfold residual_test.
  destruct (hsic_ok sf n 1 (length (remove_nat j [j; k])) (fun s _ => residual_col reg n X (remove_nat j [j; k]) j s) (block X (remove_nat j [j; k])) H) as [t Et].
  destruct (hsic_ok sf n 1 (length (remove_nat k [j; k])) (fun s _ => residual_col reg n X (remove_nat k [j; k]) k s) (block X (remove_nat k [j; k])) H) as [t' Et'].
  rewrite Et, Et'. cbn [bind]. eexists. eexists. reflexivity.
Qed.
Lemma argmin_pair : forall u v, argmin [u; v] = Some 0%nat \/ argmin [u; v] = Some 1%nat.
Proof. intros [u|] [v|]; cbn; try tauto. destruct (Rltb v u); tauto. Qed.
Lemma first_choice : forall sf reg alpha n X l i, (3 < n)%nat -> order_stats sf reg n X [0; 1; 2]%nat = Ok l -> argmin l = Some i -> (i < 3)%nat ->
  exists o M, resit_R sf reg alpha n X 3 = Ok (o, M) /\ last o 3%nat = i.
Proof.
  intros sf reg alpha n X l i Hn E A Hi. unfold resit_R. cbn [seq order_loopR]. unfold order_stepR at 1. rewrite E. cbn [bind]. rewrite A.
  destruct i as [|[|[|i]]]; [| | |lia]; cbn [nth_error bind];
    [change (remove_nat 0 [0; 1; 2]%nat) with [1; 2]%nat|change (remove_nat 1 [0; 1; 2]%nat) with [0; 2]%nat|change (remove_nat 2 [0; 1; 2]%nat) with [0; 1]%nat];
    unfold order_stepR at 1;
    match goal with |- context [order_stats _ _ _ _ [?j; ?k]] => destruct (pair_stats sf reg n X j k Hn) as (u & v & E2); rewrite E2 end; cbn [bind];
    destruct (argmin_pair u v) as [A2 | A2]; rewrite A2; cbn; eexists; eexists; split; reflexivity.
Qed.

(** The counterexample: four rows, integer values. *)
Definition zcol (j s : nat) : Z := nth s (match j with O => [0; 0; 0; 1] | S O => [0; 0; 1; 1] | _ => [0; 0; 2; 0] end)%Z 0%Z.
Definition zcol2 (j s : nat) : Z := match j with S O => (2 * zcol 1 s)%Z | _ => zcol j s end.
Definition rcol (j s : nat) : R := IZR (zcol j s).
Definition one_unit (j : nat) : R := match j with S O => 2 | _ => 1 end.
Lemma mean_stat : forall sf z L k, exists c, residual_test sf mean_regressor 4 (fun j s => IZR (z j s)) L k
  = hsic_test sf 4 1 (length L) (fun s _ => IZR (z k s) + c) (realY (fun s i => z (nth i L 0%nat) s)).
Proof. intros sf z L k. exists (- average 4 (fun s => IZR (z k s))). reflexivity. Qed.
Lemma mean_test : forall sf z L k, residual_test sf mean_regressor 4 (fun j s => IZR (z j s)) L k
  = hsic_test sf 4 1 (length L) (realY (fun s _ => z k s)) (realY (fun s i => z (nth i L 0%nat) s)).
Proof.
  intros sf z L k. destruct (mean_stat sf z L k) as [c E]. rewrite E.
  rewrite <- (hsic_test_moved sf 4 1 (length L) (realY (fun s _ => z k s)) (realY (fun s i => z (nth i L 0%nat) s)) 1 1 (fun _ => c) (fun _ => 0)) by lra.
  f_equal.
  - apply functional_extensionality. intro s. apply functional_extensionality. intro i. unfold realY. ring.
  - apply functional_extensionality. intro s. apply functional_extensionality. intro i. unfold realY. ring.
Qed.
Definition istat (z : nat -> nat -> Z) (L : list nat) (k : nat) : ival := ihsic 4 1 (length L) (fun s _ => z k s) (fun s i => z (nth i L 0%nat) s).
Definition stat_ok (z : nat -> nat -> Z) (L : list nat) (k : nat) : bool := zok 4 1 (fun s _ => z k s) && zok 4 (length L) (fun s i => z (nth i L 0%nat) s).
Lemma three_stats : forall sf z, stat_ok z [1; 2]%nat 0 = true -> stat_ok z [0; 2]%nat 1 = true -> stat_ok z [0; 1]%nat 2 = true ->
  exists u v w, order_stats sf mean_regressor 4 (fun j s => IZR (z j s)) [0; 1; 2]%nat = Ok [Some u; Some v; Some w]
    /\ inI (istat z [1; 2]%nat 0) u /\ inI (istat z [0; 2]%nat 1) v /\ inI (istat z [0; 1]%nat 2) w.
Proof.
  intros sf z H0 H1 H2. unfold stat_ok in *. apply andb_prop in H0, H1, H2. destruct H0 as [A0 B0], H1 as [A1 B1], H2 as [A2 B2].
  destruct (ihsic_in sf 4 1 2 _ _ ltac:(lia) ltac:(lia) A0 B0) as (u & p0 & E0 & I0). destruct (ihsic_in sf 4 1 2 _ _ ltac:(lia) ltac:(lia) A1 B1) as (v & p1 & E1 & I1). destruct (ihsic_in sf 4 1 2 _ _ ltac:(lia) ltac:(lia) A2 B2) as (w & p2 & E2 & I2).
  exists u, v, w. split; [|exact (conj I0 (conj I1 I2))]. unfold order_stats. cbn [traverse]. change (remove_nat 0 [0; 1; 2]%nat) with [1; 2]%nat. change (remove_nat 1 [0; 1; 2]%nat) with [0; 2]%nat. change (remove_nat 2 [0; 1; 2]%nat) with [0; 1]%nat.
  rewrite !mean_test. cbn [length]. rewrite E0, E1, E2. reflexivity.
Qed.
Example C206_example_order : forall sf alpha, exists o M, resit_R sf mean_regressor alpha 4 rcol 3 = Ok (o, M) /\ last o 3%nat = 0%nat.
Proof.
  intros sf alpha. destruct (three_stats sf zcol ltac:(vm_compute; reflexivity) ltac:(vm_compute; reflexivity) ltac:(vm_compute; reflexivity)) as (u & v & w & E & I0 & I1 & I2).
  apply (first_choice sf mean_regressor alpha 4 rcol _ 0%nat) with (2 := E); [lia| |lia].
  assert (L1 : u < v) by (apply (ival_lt _ _ u v I0 I1); vm_compute; reflexivity). assert (L2 : u < w) by (apply (ival_lt _ _ u w I0 I2); vm_compute; reflexivity).
  cbn. unfold Rltb. destruct (Rlt_dec v u); [lra|]. destruct (Rlt_dec w u); [lra|]. reflexivity.
Qed.
Lemma rcol2 : rescaled one_unit (fun _ => 0) rcol = (fun j s => IZR (zcol2 j s)).
Proof. apply functional_extensionality. intro j. apply functional_extensionality. intro s. unfold rescaled, one_unit, rcol, zcol2. destruct j as [|[|j]]; rewrite ?mult_IZR; ring. Qed.
Example C206_example_order_rescaled : forall sf alpha, exists o M, resit_R sf mean_regressor alpha 4 (rescaled one_unit (fun _ => 0) rcol) 3 = Ok (o, M) /\ last o 3%nat = 2%nat.
Proof.
  intros sf alpha. rewrite rcol2. destruct (three_stats sf zcol2 ltac:(vm_compute; reflexivity) ltac:(vm_compute; reflexivity) ltac:(vm_compute; reflexivity)) as (u & v & w & E & I0 & I1 & I2).
  apply (first_choice sf mean_regressor alpha 4 (fun j s => IZR (zcol2 j s)) _ 2%nat) with (2 := E); [lia| |lia].
  assert (L1 : w < u) by (apply (ival_lt _ _ w u I2 I0); vm_compute; reflexivity). assert (L2 : w < v) by (apply (ival_lt _ _ w v I2 I1); vm_compute; reflexivity).
  cbn. unfold Rltb. destruct (Rlt_dec v u); [destruct (Rlt_dec w v); [reflexivity|lra]|]. destruct (Rlt_dec w u); [reflexivity|lra].
Qed.
(** Measuring one of three variables in another unit can change the order. *)
Theorem C206_single_unit_refuted :
  ~ (forall gamma_sf reg alpha n X a b p, unit_free reg -> (forall j, 0 < a j) ->
     resit_R gamma_sf reg alpha n (rescaled a b X) p = resit_R gamma_sf reg alpha n X p).
Proof.
  intro H. specialize (H (fun _ _ _ _ => None) mean_regressor 0 4%nat rcol one_unit (fun _ => 0) 3%nat C206_example_regressor).
  assert (P : forall j, 0 < one_unit j) by (intros [|[|j]]; cbn; lra). specialize (H P).
  destruct (C206_example_order (fun _ _ _ _ => None) 0) as (o & M & E & L). destruct (C206_example_order_rescaled (fun _ _ _ _ => None) 0) as (o' & M' & E' & L').
  rewrite E, E' in H. injection H as H _. subst o'. rewrite L in L'. discriminate.
Qed.
Print Assumptions C206_common_unit_partial.
Print Assumptions C206_two_variables.
Print Assumptions C206_unit_of_the_target.
Print Assumptions C206_single_unit_refuted.
