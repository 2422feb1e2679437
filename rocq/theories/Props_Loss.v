(** * The objectives minimised by LiNA, MD-LiNA and LiM: gradients and likelihoods (C146-C149) *)
From Coq Require Import Reals Lra Lia Arith Bool FunctionalExtensionality.
From Verif Require Import Prelude LibR SpecGrad ModelLoss ProofLoss ProofLoss2 ProofLoss3.
Open Scope R_scope.

(** ** C146: LiNA hands the optimiser the gradient of its objective *)
Theorem C146_loss_gradient : forall lt n d f (F : rmat -> R) (G : rmat -> rmat),
  (forall W, lina_value_grad lt n d f W = Ok (F W, G W)) -> forall W, is_gradient d d F W (G W).
Proof. exact lina_gradient. Qed.
Theorem C146_acyclicity_gradient : forall d W, (0 < d)%nat ->
  is_gradient d d (h_value d) W (fun i j => h_power d W j i * W i j * 2).
Proof. exact h_gradient. Qed.
Theorem C146_objective_gradient : forall lt n d f rho alpha lambda1 (F : (nat -> R) -> R) (G : (nat -> R) -> nat -> R),
  (0 < d)%nat -> (forall w, func (lina_value_grad lt n d f) rho alpha lambda1 d w = Ok (F w, G w)) ->
  forall w, is_gradient_vec (2 * (d * d)) F w (G w).
Proof.
  intros lt n d f rho alpha lambda1 F G Hd H.
  assert (K : lt = Other \/ exists L D, forall W, lina_value_grad lt n d f W = Ok (L W, D W)).
  { destruct lt; [right; eexists; eexists; intro W; reflexivity..|left; reflexivity]. }
  destruct K as [->|[L [D K] ] ]; [specialize (H (fun _ => 0)); discriminate|].
  apply (func_gradient (lina_value_grad lt n d f) rho alpha lambda1 d L D Hd K (lina_gradient lt n d f L D K) F G H).
Qed.
(** The four documented losses never raise; any other name raises ValueError. *)
Theorem C146_losses_accepted : forall lt n d f rho alpha lambda1,
  (lt <> Other -> exists F G, forall w, func (lina_value_grad lt n d f) rho alpha lambda1 d w = Ok (F w, G w)) /\
  (lt = Other -> forall w, func (lina_value_grad lt n d f) rho alpha lambda1 d w = Err ValueError).
Proof.
  intros. split; [|intros -> w; reflexivity]. intro D. destruct lt; [..|contradiction]; eexists; eexists; intro w; reflexivity.
Qed.
Print Assumptions C146_loss_gradient.
Print Assumptions C146_acyclicity_gradient.
Print Assumptions C146_objective_gradient.
Print Assumptions C146_losses_accepted.

(** Two samples of two variables. *)
Definition lx : rmat := fun s j => INR (1 + 2 * s + j).     (* rows 1 2 / 3 4 *)
Example C146_ex_value : forall l G, lina_value_grad L2 2 2 lx (fun _ _ => 0) = Ok (l, G) -> l = 7.5 /\ G 0%nat 1%nat = -7.
Proof.
  intros l G H. cbn in H. injection H as <- <-. unfold total, tmul, predict, lx. cbn. split; lra.
Qed.
Example C146_ex_gradient : exists F G, (forall w, func (lina_value_grad Laplace 2 2 lx) 1 0 0.1 2 w = Ok (F w, G w)) /\
  forall w, is_gradient_vec 8 F w (G w).
Proof.
  destruct (proj1 (C146_losses_accepted Laplace 2 2 lx 1 0 0.1) ltac:(discriminate)) as [F [G H] ].
  exists F, G. split; [exact H|]. intro w. exact (C146_objective_gradient Laplace 2 2 lx 1 0 0.1 F G ltac:(lia) H w).
Qed.
(** The acyclicity function is not flat: on the cycle 0 <-> 1 its value and gradient are positive. *)
Example C146_ex_cycle : h_value 2 (fun i j => if Nat.eqb i j then 0 else 1) = 0.5 /\
  h_power 2 (fun i j => if Nat.eqb i j then 0 else 1) 1%nat 0%nat * 1 * 2 = 1.
Proof. split; unfold h_value, h_power, h_base, total, rid; cbn; unfold rmul, rid; cbn; lra. Qed.

(** ** C147: the gradient LiM hands the optimiser *)
Theorem C147_logistic_gradient : forall fac bic dc n d X (F : rmat -> R) (G : rmat -> rmat),
  (forall W, lim_value_grad fac bic dc LogisticM n d X W = Ok (F W, G W)) -> forall W, is_gradient d d F W (G W).
Proof. exact lim_logistic_gradient. Qed.
Theorem C147_mixed_continuous_gradient : forall fac bic dc n d X (F : rmat -> R) (G : rmat -> rmat),
  (forall j, (j < d)%nat -> dc j = 1) ->
  (forall W, lim_value_grad fac bic dc MixedM n d X W = Ok (F W, G W)) -> forall W, is_gradient d d F W (G W).
Proof.
  intros fac bic dc n d X F G Hdc H W.
  eapply gradient_ext; [intro; reflexivity| |apply (lim_mixed_gradient fac bic dc n d X F G (fun j Hj => or_intror (Hdc j Hj)) H)].
  intros k j Hk Hj. cbn beta.
  destruct (lim_mixed_entry fac bic dc n d X W _ _ k j (H W) (or_intror (Hdc k Hk)) (or_intror (Hdc j Hj))) as [E _].
  rewrite (E (Hdc k Hk) (Hdc j Hj)). unfold is_one. rewrite (Hdc j Hj). destruct (Req_EM_T 1 1); [reflexivity|lra].
Qed.
(** With either of them, the whole objective has the gradient that is returned. *)
Theorem C147_objective_gradient : forall fac bic dc lt n d X rho alpha lambda1 (F : (nat -> R) -> R) (G : (nat -> R) -> nat -> R),
  (0 < d)%nat -> (lt = LogisticM \/ (lt = MixedM /\ forall j, (j < d)%nat -> dc j = 1)) ->
  (forall w, func (lim_value_grad fac bic dc lt n d X) rho alpha lambda1 d w = Ok (F w, G w)) ->
  forall w, is_gradient_vec (2 * (d * d)) F w (G w).
Proof.
  intros fac bic dc lt n d X rho alpha lambda1 F G Hd Hlt H.
  assert (K : exists L D, forall W, lim_value_grad fac bic dc lt n d X W = Ok (L W, D W)).
  { destruct Hlt as [->|[-> _] ]; eexists; eexists; intro W; reflexivity. }
  destruct K as [L [D K] ].
  apply (func_gradient (lim_value_grad fac bic dc lt n d X) rho alpha lambda1 d L D Hd K); [|exact H].
  destruct Hlt as [->|[-> Hc] ]; [apply (lim_logistic_gradient fac bic dc n d X L D K)|].
  apply (C147_mixed_continuous_gradient fac bic dc n d X L D Hc K).
Qed.

(** Refuted for "laplace": what is returned is minus the gradient, so that stepping against it raises the loss. *)
Theorem C147_laplace_refuted : forall fac bic dc n d X (F : rmat -> R) (G : rmat -> rmat),
  (forall W, lim_value_grad fac bic dc LaplaceM n d X W = Ok (F W, G W)) ->
  forall W, is_gradient d d F W (fun i j => - G W i j) /\
    forall i j, (i < d)%nat -> (j < d)%nat -> G W i j <> 0 ->
      ~ is_gradient d d F W (G W) /\ rises F W (fun i j => - G W i j).
Proof.
  intros fac bic dc n d X F G H W. pose proof (lim_laplace_gradient fac bic dc n d X F G H W) as T. split; [exact T|].
  intros i j Hi Hj D. split.
  - intro C. pose proof (gradient_unique d d F W _ _ T C i j Hi Hj) as E. cbn beta in E. apply D. lra.
  - apply (gradient_rises d d F W _ _ T).
    apply (square_sum_pos d d (fun i j => - G W i j) i j Hi Hj). cbn. lra.
Qed.
(** Refuted for "mixed" (the default) with discrete variables only: again minus the gradient. *)
Theorem C147_mixed_discrete_refuted : forall fac bic dc n d X (F : rmat -> R) (G : rmat -> rmat),
  (forall j, (j < d)%nat -> dc j = 0) ->
  (forall W, lim_value_grad fac bic dc MixedM n d X W = Ok (F W, G W)) ->
  forall W, is_gradient d d F W (fun i j => - G W i j) /\
    forall i j, (i < d)%nat -> (j < d)%nat -> G W i j <> 0 ->
      ~ is_gradient d d F W (G W) /\ rises F W (fun i j => - G W i j).
Proof.
  intros fac bic dc n d X F G Hdc H W.
  assert (T : is_gradient d d F W (fun i j => - G W i j)).
  { eapply gradient_ext; [intro; reflexivity| |apply (lim_mixed_gradient fac bic dc n d X F G (fun j Hj => or_introl (Hdc j Hj)) H)].
    intros k j Hk Hj. cbn beta.
    destruct (lim_mixed_entry fac bic dc n d X W _ _ k j (H W) (or_introl (Hdc k Hk)) (or_introl (Hdc j Hj))) as [_ [E _] ].
    rewrite (E (Hdc k Hk) (Hdc j Hj)). unfold is_one. rewrite (Hdc j Hj). destruct (Req_EM_T 0 1); [lra|reflexivity]. }
  split; [exact T|]. intros i j Hi Hj D. split.
  - intro C. pose proof (gradient_unique d d F W _ _ T C i j Hi Hj) as E. cbn beta in E. apply D. lra.
  - apply (gradient_rises d d F W _ _ T).
    apply (square_sum_pos d d (fun i j => - G W i j) i j Hi Hj). cbn. lra.
Qed.
(** Refuted for "mixed" with both kinds: for a discrete cause [k] of a continuous effect [j] the returned entry carries
    the extra summand [A], the one a discrete effect would have; for a continuous cause of a discrete effect it is [A - C]
    where the derivative is [- A]. *)
Theorem C147_mixed_entries_refuted : forall fac bic dc n d X (F : rmat -> R) (G : rmat -> rmat),
  (forall j, (j < d)%nat -> dc j = 0 \/ dc j = 1) ->
  (forall W, lim_value_grad fac bic dc MixedM n d X W = Ok (F W, G W)) ->
  forall W T, is_gradient d d F W T -> forall k j, (k < d)%nat -> (j < d)%nat ->
  let m := fun s => rsum d (fun l => X s l * W l j) in
  let A := 1 / INR n * rsum n (fun s => X s k * (/ (1 + exp (- m s)) - X s j)) in
  let C := 1 / INR n * rsum n (fun s => X s k * tanh (X s j - m s)) in
  (dc k = 1 -> dc j = 1 -> T k j = - C /\ G W k j = - C) /\
  (dc k = 0 -> dc j = 1 -> T k j = - C /\ G W k j = A - C) /\
  (dc k = 1 -> dc j = 0 -> T k j = - A /\ G W k j = A - C) /\
  (dc k = 0 -> dc j = 0 -> T k j = - A /\ G W k j = A).
Proof.
  intros fac bic dc n d X F G Hdc H W T HT k j Hk Hj m A C.
  pose proof (gradient_unique d d F W _ _ HT (lim_mixed_gradient fac bic dc n d X F G Hdc H W) k j Hk Hj) as E. cbn beta in E.
  destruct (lim_mixed_entry fac bic dc n d X W _ _ k j (H W) (Hdc k Hk) (Hdc j Hj)) as [G1 [G2 G3] ].
  rewrite E. unfold is_one.
  repeat apply conj; intros Ek Ej; rewrite Ej; (split; [|first [apply G1; assumption|apply G2; assumption|apply G3; rewrite Ek, Ej; lra]]).
  - destruct (Req_EM_T 1 1); [reflexivity|lra].
  - destruct (Req_EM_T 1 1); [reflexivity|lra].
  - destruct (Req_EM_T 0 1); [lra|reflexivity].
  - destruct (Req_EM_T 0 1); [lra|reflexivity].
Qed.
(** Refuted for "poisson": the derivative contains the row sums of the data, the returned matrix the entries. *)
Theorem C147_poisson_refuted : forall fac bic dc n d X (F : rmat -> R) (G : rmat -> rmat),
  (forall W, lim_value_grad fac bic dc PoissonM n d X W = Ok (F W, G W)) ->
  forall W T, is_gradient d d F W T -> forall k j, (k < d)%nat -> (j < d)%nat ->
  T k j = 1 / INR n * rsum n (fun s => X s k * (exp (rsum d (fun l => X s l * W l j)) - rsum d (fun l => X s l))) /\
  G W k j = 1 / INR n * rsum n (fun s => X s k * (exp (rsum d (fun l => X s l * W l j)) - X s j)).
Proof.
  intros fac bic dc n d X F G H W T HT k j Hk Hj. split.
  - rewrite (gradient_unique d d F W _ _ HT (lim_poisson_gradient fac bic dc n d X F G H W) k j Hk Hj).
    f_equal. unfold tmul. rewrite <- rsum_opp, <- rsum_plus. apply rsum_ext. intros s _. unfold predict. ring.
  - specialize (H W). cbn in H. injection H as _ E. rewrite <- E.
    f_equal. unfold tmul. rewrite <- rsum_opp, <- rsum_plus. apply rsum_ext. intros s _. unfold predict. ring.
Qed.
Print Assumptions C147_logistic_gradient.
Print Assumptions C147_mixed_continuous_gradient.
Print Assumptions C147_objective_gradient.
Print Assumptions C147_laplace_refuted.
Print Assumptions C147_mixed_discrete_refuted.
Print Assumptions C147_mixed_entries_refuted.
Print Assumptions C147_poisson_refuted.

(** One sample (1, 1): the returned matrices differ from the gradients at W = 0. *)
Definition ones : rmat := fun _ _ => 1.
Definition zeros : rmat := fun _ _ => 0.
Lemma tanh1 : 0 < tanh 1.
Proof. pose proof (tanh_sign 1 ltac:(lra)). lra. Qed.
Example C147_ex_laplace : exists F G, (forall W, lim_value_grad (fun _ => 1) (fun _ => 0) (fun _ => 1) LaplaceM 1 2 ones W = Ok (F W, G W)) /\
  ~ is_gradient 2 2 F zeros (G zeros) /\ rises F zeros (fun i j => - G zeros i j).
Proof.
  assert (K : exists F G, forall W, lim_value_grad (fun _ => 1) (fun _ => 0) (fun _ => 1) LaplaceM 1 2 ones W = Ok (F W, G W)) by (eexists; eexists; intro; reflexivity).
  destruct K as [F [G H] ]. exists F, G. split; [exact H|].
  apply (proj2 (C147_laplace_refuted _ _ _ _ _ _ F G H zeros) 0%nat 1%nat); [lia|lia|].
  specialize (H zeros). cbn in H. injection H as _ E. rewrite <- E. unfold tmul, predict, ones, zeros. cbn.
  replace (1 - (0 + 1 * 0 + 1 * 0)) with 1 by ring. pose proof tanh1. lra.
Qed.
Example C147_ex_mixed : exists F G, (forall W, lim_value_grad (fun _ => 1) (fun _ => 0) (fun j => if Nat.eqb j 0 then 0 else 1) MixedM 1 2 ones W = Ok (F W, G W)) /\
  ~ is_gradient 2 2 F zeros (G zeros).
Proof.
  assert (K : exists F G, forall W, lim_value_grad (fun _ => 1) (fun _ => 0) (fun j => if Nat.eqb j 0 then 0 else 1) MixedM 1 2 ones W = Ok (F W, G W)) by (eexists; eexists; intro; reflexivity).
  destruct K as [F [G H] ]. exists F, G. split; [exact H|]. intro C.
  assert (B : forall j, (j < 2)%nat -> (if Nat.eqb j 0 then 0 else 1) = 0 \/ (if Nat.eqb j 0 then 0 else 1) = 1).
  { intros [|j] _; [left|right]; reflexivity. }
  destruct (C147_mixed_entries_refuted _ _ _ _ _ _ F G B H zeros (G zeros) C 0%nat 1%nat ltac:(lia) ltac:(lia)) as [_ [E _] ].
  destruct (E eq_refl eq_refl) as [E1 E2]. rewrite E2 in E1. cbn in E1. unfold ones, zeros in E1.
  replace (- (0 + 1 * 0 + 1 * 0)) with 0 in E1 by ring. rewrite exp_0 in E1. lra.
Qed.
Example C147_ex_poisson : exists F G, (forall W, lim_value_grad (fun _ => 1) (fun _ => 0) (fun _ => 0) PoissonM 1 2 ones W = Ok (F W, G W)) /\
  ~ is_gradient 2 2 F zeros (G zeros).
Proof.
  assert (K : exists F G, forall W, lim_value_grad (fun _ => 1) (fun _ => 0) (fun _ => 0) PoissonM 1 2 ones W = Ok (F W, G W)) by (eexists; eexists; intro; reflexivity).
  destruct K as [F [G H] ]. exists F, G. split; [exact H|]. intro C.
  destruct (C147_poisson_refuted _ _ _ _ _ _ F G H zeros (G zeros) C 0%nat 1%nat ltac:(lia) ltac:(lia)) as [E1 E2].
  rewrite E2 in E1. cbn in E1. unfold ones, zeros in E1. lra.
Qed.
Example C147_ex_continuous : exists F G, (forall W, lim_value_grad (fun _ => 1) (fun _ => 0) (fun _ => 1) MixedM 2 2 lx W = Ok (F W, G W)) /\
  (forall W, is_gradient 2 2 F W (G W)) /\ G zeros 0%nat 1%nat < 0.
Proof.
  assert (K : exists F G, forall W, lim_value_grad (fun _ => 1) (fun _ => 0) (fun _ => 1) MixedM 2 2 lx W = Ok (F W, G W)) by (eexists; eexists; intro; reflexivity).
  destruct K as [F [G H] ]. exists F, G. split; [exact H|].
  split; [apply (C147_mixed_continuous_gradient _ _ _ _ _ _ F G (fun _ _ => eq_refl) H)|].
  specialize (H zeros). cbn in H. injection H as _ E. rewrite <- E. unfold is_zero, is_one.
  destruct (Req_EM_T 1 0); [lra|]. destruct (Req_EM_T 1 1); [|lra]. unfold tmul, predict, lx, zeros. cbn.
  match goal with |- context [ tanh ?a ] => pose proof (tanh_sign a ltac:(lra)) as P1 end.
  match goal with |- context [ (1 + 1 + 1) * tanh ?b ] => pose proof (tanh_sign b ltac:(lra)) as P2 end.
  assert (Q1 : 0 < tanh (1 + 1 - (0 + 1 * 0 + (1 + 1) * 0))).
  { replace (1 + 1 - (0 + 1 * 0 + (1 + 1) * 0)) with 2 in * by ring. lra. }
  assert (Q2 : 0 < tanh (1 + 1 + 1 + 1 - (0 + (1 + 1 + 1) * 0 + (1 + 1 + 1 + 1) * 0))).
  { replace (1 + 1 + 1 + 1 - (0 + (1 + 1 + 1) * 0 + (1 + 1 + 1 + 1) * 0)) with 4 in * by ring. lra. }
  lra.
Qed.

(** ** C148: the losses of LiM as average negative log-likelihoods *)
Theorem C148_logistic_likelihood : forall fac bic dc n d X W l G,
  lim_value_grad fac bic dc LogisticM n d X W = Ok (l, G) ->
  l = 1 / INR n * rsum n (fun s => rsum d (fun j => nll_binary (X s j) (rsum d (fun k => X s k * W k j)))).
Proof.
  intros fac bic dc n d X W l G H. cbn in H. injection H as <- _. f_equal. apply rsum_ext. intros s _. apply rsum_ext. intros j _.
  rewrite nll_binary_eq. reflexivity.
Qed.
Theorem C148_laplace_likelihood : forall fac bic dc n d X W l G,
  lim_value_grad fac bic dc LaplaceM n d X W = Ok (l, G) ->
  l = 1 / INR n * rsum n (fun s => rsum d (fun j => nll_cosh (X s j) (rsum d (fun k => X s k * W k j)))).
Proof.
  intros fac bic dc n d X W l G H. cbn in H. injection H as <- _.
  rewrite (total_ext n d _ (fun s j => -1 * nll_cosh (X s j) (rsum d (fun k => X s k * W k j)))).
  2:{ intros s j _ _. rewrite nll_cosh_eq. unfold predict. ring. }
  rewrite total_scal. unfold total, Rdiv. ring.
Qed.
Theorem C148_mixed_continuous_likelihood : forall fac bic dc n d X W l G, (forall j, (j < d)%nat -> dc j = 1) ->
  lim_value_grad fac bic dc MixedM n d X W = Ok (l, G) ->
  l = 1 / INR n * rsum n (fun s => rsum d (fun j => nll_cosh (X s j) (rsum d (fun k => X s k * W k j)))).
Proof.
  intros fac bic dc n d X W l G Hdc H. cbn in H. injection H as <- _.
  rewrite (total_0 n d (fun s j => _ * Rabs (dc j - 1))).
  2:{ intros s j _ Hj. rewrite Hdc by exact Hj. replace (1 - 1) with 0 by ring. rewrite Rabs_R0. ring. }
  rewrite (total_ext n d _ (fun s j => -1 * nll_cosh (X s j) (rsum d (fun k => X s k * W k j)))).
  2:{ intros s j _ Hj. rewrite nll_cosh_eq, Hdc by exact Hj. unfold predict. ring. }
  rewrite total_scal. unfold total, Rdiv. ring.
Qed.
(** Refuted: on discrete variables the "mixed" loss is minus the average negative log-likelihood. *)
Theorem C148_mixed_discrete_refuted : forall fac bic dc n d X W l G, (forall j, (j < d)%nat -> dc j = 0) ->
  lim_value_grad fac bic dc MixedM n d X W = Ok (l, G) ->
  l = - (1 / INR n * rsum n (fun s => rsum d (fun j => nll_binary (X s j) (rsum d (fun k => X s k * W k j))))).
Proof.
  intros fac bic dc n d X W l G Hdc H. cbn in H. injection H as <- _.
  rewrite (total_0 n d (fun s j => _ * dc j)).
  2:{ intros s j _ Hj. rewrite Hdc by exact Hj. ring. }
  rewrite (total_ext n d _ (fun s j => nll_binary (X s j) (rsum d (fun k => X s k * W k j)))).
  2:{ intros s j _ Hj. rewrite nll_binary_eq, Hdc by exact Hj. replace (0 - 1) with (- (1)) by ring. rewrite Rabs_Ropp, Rabs_R1. unfold predict. ring. }
  unfold total, Rdiv. ring.
Qed.
(** Hence it has no lower bound, already over the graphs with the single edge [k -> j], as soon as both variables are 1
    in one sample. *)
Theorem C148_mixed_unbounded_refuted : forall fac bic dc n d X s k j,
  (forall j, (j < d)%nat -> dc j = 0) -> (forall s j, (s < n)%nat -> (j < d)%nat -> X s j = 0 \/ X s j = 1) ->
  (s < n)%nat -> (k < d)%nat -> (j < d)%nat -> k <> j -> X s k = 1 -> X s j = 1 ->
  forall b, exists W l G, (forall a c, W a c <> 0 -> a = k /\ c = j) /\
    lim_value_grad fac bic dc MixedM n d X W = Ok (l, G) /\ l < b.
Proof.
  intros fac bic dc n d X s k j Hdc HX Hs Hk Hj D Xk Xj b.
  set (T := INR n * (Rabs b + 1)).
  set (W := (fun a c => if ((a =? k) && (c =? j))%nat then - T else 0) : rmat).
  assert (E : exists l G, lim_value_grad fac bic dc MixedM n d X W = Ok (l, G)) by (eexists; eexists; reflexivity).
  destruct E as [l [G E] ]. exists W, l, G. split; [|split; [exact E|]].
  { intros a c N. unfold W in N. destruct (Nat.eqb_spec a k); [|contradiction]. destruct (Nat.eqb_spec c j); [|contradiction]. auto. }
  rewrite (C148_mixed_discrete_refuted fac bic dc n d X W l G Hdc E).
  assert (Pn : 0 < INR n) by (apply lt_0_INR; lia).
  assert (NN : forall s' j', (s' < n)%nat -> (j' < d)%nat -> forall m, 0 <= nll_binary (X s' j') m).
  { intros s' j' Hs' Hj' m. rewrite nll_binary_eq. destruct (logaddexp0_ge m) as [L1 L2]. destruct (HX s' j' Hs' Hj') as [-> | ->]; lra. }
  assert (B : T <= rsum n (fun s => rsum d (fun j => nll_binary (X s j) (rsum d (fun k => X s k * W k j))))).
  { eapply Rle_trans; [|apply (rsum_ge_one n _ s Hs); intros; apply rsum_nonneg; intros; apply NN; assumption].
    cbn beta. eapply Rle_trans; [|apply (rsum_ge_one d _ j Hj); intros; apply NN; assumption]. cbn beta.
    rewrite (rsum_single d _ k Hk).
    - unfold W. rewrite !Nat.eqb_refl. cbn. rewrite Xk, Xj, nll_binary_eq. destruct (logaddexp0_ge (1 * - T)) as [L1 L2]. lra.
    - intros i _ Di. unfold W. apply Nat.eqb_neq in Di. rewrite Di. cbn. ring. }
  set (S := rsum n _) in *.
  assert (1 / INR n * T <= 1 / INR n * S).
  { apply Rmult_le_compat_l; [|exact B]. unfold Rdiv. rewrite Rmult_1_l. apply Rlt_le, Rinv_0_lt_compat, Pn. }
  assert (ET : 1 / INR n * T = Rabs b + 1) by (unfold T; field; lra).
  pose proof (Rle_abs (- b)). rewrite Rabs_Ropp in *. lra.
Qed.
(** Refuted: beside the average negative log-likelihood of the counts, the "poisson" loss contains the products of the
    predictor of every variable with the values of all the others. *)
Theorem C148_poisson_refuted : forall fac bic dc n d X W l G,
  (forall s j, (s < n)%nat -> (j < d)%nat -> 0 < fac (X s j)) ->
  lim_value_grad fac bic dc PoissonM n d X W = Ok (l, G) ->
  l = 1 / INR n * rsum n (fun s => rsum d (fun j =>
        nll_count (fac (X s j)) (X s j) (rsum d (fun k => X s k * W k j))
        - rsum d (fun i => if Nat.eqb i j then 0 else X s i * rsum d (fun k => X s k * W k j)))).
Proof.
  intros fac bic dc n d X W l G Hf H. cbn in H. injection H as <- _. f_equal.
  transitivity (total n d (fun s j => (- rsum d (fun i => X s i * predict d X W s j) + exp (predict d X W s j)) + ln (fac (X s j)))).
  - rewrite !total_plus. f_equal. f_equal. unfold total, tmul.
    rewrite (rsum_ext d _ (fun i => rsum n (fun s => rsum d (fun j => X s i * predict d X W s j)))) by (intros; apply rsum_swap).
    rewrite rsum_swap, <- rsum_opp. apply rsum_ext. intros s _. rewrite rsum_swap, <- rsum_opp. reflexivity.
  - apply total_ext. intros s j Hs Hj. rewrite nll_count_eq by (apply Hf; assumption).
    change (rsum d (fun k => X s k * W k j)) with (predict d X W s j).
    assert (E : rsum d (fun i => X s i * predict d X W s j)
              = X s j * predict d X W s j + rsum d (fun i => if Nat.eqb i j then 0 else X s i * predict d X W s j)); [|rewrite E; ring].
    assert (E1 := rsum_single d (fun i => if Nat.eqb i j then X s i * predict d X W s j else 0) j Hj).
    cbn beta in E1. rewrite Nat.eqb_refl in E1. rewrite <- E1.
    + rewrite <- rsum_plus. apply rsum_ext. intros i _. destruct (Nat.eqb_spec i j); ring.
    + intros i _ Di. apply Nat.eqb_neq in Di. rewrite Di. reflexivity.
Qed.
Print Assumptions C148_logistic_likelihood.
Print Assumptions C148_laplace_likelihood.
Print Assumptions C148_mixed_continuous_likelihood.
Print Assumptions C148_mixed_discrete_refuted.
Print Assumptions C148_mixed_unbounded_refuted.
Print Assumptions C148_poisson_refuted.
Example C148_ex_unbounded : forall b, exists W l G, (forall a c, W a c <> 0 -> a = 0%nat /\ c = 1%nat) /\
  lim_value_grad (fun _ => 1) (fun _ => 0) (fun _ => 0) MixedM 1 2 ones W = Ok (l, G) /\ l < b.
Proof.
  intro b. apply (C148_mixed_unbounded_refuted _ _ _ 1 2 ones 0 0 1); try reflexivity; try lia.
  intros; right; reflexivity.
Qed.
(** The counts (1, 1) with the edge 0 -> 1 of weight 1: the loss lies 1 below the negative log-likelihood. *)
Example C148_ex_poisson : forall l G,
  lim_value_grad (fun _ => 1) (fun _ => 0) (fun _ => 0) PoissonM 1 2 ones (fun i j => if ((i =? 0) && (j =? 1))%nat then 1 else 0) = Ok (l, G) ->
  l = nll_count 1 1 0 + nll_count 1 1 1 - 1.
Proof.
  intros l G H. pose proof (C148_poisson_refuted _ _ _ _ _ _ _ _ _ (fun _ _ _ _ => Rlt_0_1) H) as E. rewrite E. clear E. cbn. unfold ones.
  replace (0 + 1 * 0 + 1 * 0) with 0 by ring. replace (0 + 1 * 1 + 1 * 0) with 1 by ring. lra.
Qed.

(** ** C149: the step of MD-LiNA that estimates the mapping between domains *)
(** Only "laplace" (and "l2" when there is one domain) can be used: the other losses, which LiNA and the second step
    accept, make the first step raise. *)
Theorem C149_loss_refuted : forall inv lt n q hq f W H,
  (lt <> Laplace /\ (lt <> L2 \/ q <> hq) -> exists e, mdh_value_grad inv lt n q hq f W H = Err e /\
     (inv (mm q (tr H) H) <> None -> e = ValueError)) /\
  (lt = Laplace -> inv (mm q (tr H) H) <> None -> exists l D, mdh_value_grad inv lt n q hq f W H = Ok (l, D)).
Proof.
  intros inv lt n q hq f W H. unfold mdh_value_grad. split.
  - intros [D1 D2]. destruct (inv (mm q (tr H) H)) as [K|]; [|exists RuntimeError; split; [reflexivity|contradiction]].
    exists ValueError. split; [|reflexivity]. destruct lt; try reflexivity; [|contradiction].
    destruct D2 as [D2|D2]; [contradiction|]. apply Nat.eqb_neq in D2. rewrite D2. reflexivity.
  - intros -> N. destruct (inv (mm q (tr H) H)) as [K|]; [|contradiction]. eexists. eexists. reflexivity.
Qed.
(** Refuted: in the first round (all weights zero, centred factors that are not constant) the matrix returned with the
    loss is never its gradient. *)
Theorem C149_gradient_refuted : forall inv n q hq f H l D (F : rmat -> R),
  (forall S K, inv S = Some K -> inverse_of hq S K) -> (forall S, (exists K, inverse_of hq S K) -> inv S <> None) ->
  (0 < n)%nat -> (0 < hq)%nat ->
  (forall H l D, mdh_value_grad inv Laplace n q hq f (fun _ _ => 0) H = Ok (l, D) -> F H = l) ->
  (forall k, (k < q)%nat -> mean_of n (fun s => f s k) = 0) ->
  rsum hq (fun j => rsum q (fun k => H k j * H k j)) < 10000 ->
  (forall K, inv (fun i j => rsum q (fun k => H k i * H k j)) = Some K -> forall j, (j < hq)%nat ->
     deviates n (fun s => rsum hq (fun l => rsum q (fun k => f s k * H k l) * K l j))) ->
  mdh_value_grad inv Laplace n q hq f (fun _ _ => 0) H = Ok (l, D) ->
  ~ is_gradient q hq F H D.
Proof.
  intros inv n q hq f H l D F I1 I2 Hn Hhq HF Hf Ht Hsd E.
  assert (EI : forall S K, inverse_of hq S K <-> is_inverse hq S K).
  { intros S K. split; [intro I; split; intros i j Hi Hj; apply (I i j Hi Hj)|intros [A B] i j Hi Hj; split; [apply A|apply B]; assumption]. }
  apply (mdh_wrong inv n q hq f H l D F); try assumption.
  - intros S K EK. apply EI, I1, EK.
  - intros S [K HK]. apply I2. exists K. apply EI, HK.
  - intros K EK j Hj Z. destruct (Hsd K EK j Hj) as [s [t [Hs [Ht' N] ] ] ]. apply N.
    set (v := fun s => mm hq (mm q f H) K s j) in *.
    assert (A : forall s, (s < n)%nat -> v s = rmean n v).
    { intros s' Hs'. unfold rstd in Z. apply sqrt_eq_0 in Z.
      - unfold rmean at 1 in Z. assert (P : 0 < INR n) by (apply lt_0_INR; lia).
        assert (Z' : rsum n (fun s => (v s - rmean n v) ^ 2) = 0).
        { apply (f_equal (fun x => x * INR n)) in Z. unfold Rdiv in Z. rewrite Rmult_assoc, Rinv_l, Rmult_1_r in Z by lra. lra. }
        pose proof (rsum_zero_all n _ ltac:(intros; apply pow2_ge_0) Z' s' Hs') as Q. cbn beta in Q.
        assert (v s' - rmean n v = 0); [|lra]. destruct (Req_dec (v s' - rmean n v) 0) as [O|O]; [exact O|].
        apply (pow_nonzero _ 2) in O. contradiction.
      - unfold rmean, Rdiv. apply Rmult_le_pos; [apply rsum_nonneg; intros; apply pow2_ge_0|].
        apply Rlt_le, Rinv_0_lt_compat, lt_0_INR. lia. }
    change (v s = v t). rewrite (A s Hs), (A t Ht'). reflexivity.
Qed.
Print Assumptions C149_loss_refuted.
Print Assumptions C149_gradient_refuted.
(** One factor, two samples 1 and -1, H = 1. *)
Definition inv1 (S : rmat) : option rmat := if Req_EM_T (S 0%nat 0%nat) 0 then None else Some (fun _ _ => / S 0%nat 0%nat).
Example C149_ex : exists l D, mdh_value_grad inv1 Laplace 2 1 1 (fun s _ => if Nat.eqb s 0 then 1 else -1) zeros ones = Ok (l, D) /\
  forall F, (forall H l D, mdh_value_grad inv1 Laplace 2 1 1 (fun s _ => if Nat.eqb s 0 then 1 else -1) zeros H = Ok (l, D) -> F H = l) ->
  ~ is_gradient 1 1 F ones D.
Proof.
  assert (S1 : mm 1 (tr ones) ones 0%nat 0%nat = 1) by (unfold mm, tr, ones; cbn; ring).
  assert (E : exists l D, mdh_value_grad inv1 Laplace 2 1 1 (fun s _ => if Nat.eqb s 0 then 1 else -1) zeros ones = Ok (l, D)).
  { apply (proj2 (C149_loss_refuted inv1 Laplace 2 1 1 _ zeros ones) eq_refl). unfold inv1. rewrite S1. destruct (Req_EM_T 1 0); [lra|discriminate]. }
  destruct E as [l [D E] ]. exists l, D. split; [exact E|]. intros F HF.
  apply (C149_gradient_refuted inv1 2 1 1 (fun s _ => if Nat.eqb s 0 then 1 else -1) ones l D F); try assumption; try lia.
  - intros S K EK. unfold inv1 in EK. destruct (Req_EM_T (S 0%nat 0%nat) 0) as [Z|Z]; [discriminate|]. injection EK as <-.
    intros i j Hi Hj. assert (i = 0%nat) by lia. assert (j = 0%nat) by lia. subst. cbn. split; field; exact Z.
  - intros S [K HK]. unfold inv1. destruct (Req_EM_T (S 0%nat 0%nat) 0) as [Z|Z]; [|discriminate].
    destruct (HK 0%nat 0%nat ltac:(lia) ltac:(lia)) as [A _]. cbn in A. rewrite Z in A. lra.
  - intros k Hk. unfold mean_of. cbn. lra.
  - cbn. unfold ones. lra.
  - intros K EK j Hj. exists 0%nat, 1%nat. split; [lia|]. split; [lia|]. unfold inv1, ones in EK. cbn in EK.
    destruct (Req_EM_T (0 + 1 * 1) 0) as [Z|Z]; [lra|]. injection EK as <-. cbn. unfold ones. replace (0 + 1 * 1) with 1 by ring. rewrite Rinv_1. lra.
Qed.
(** loss_type "mixed_dag": the loss is the score of the local search, which depends on the graph only, but the matrix
    returned with it is the gradient of another function: the logistic loss minus the Laplace log-likelihood of all
    variables, discrete or not. *)
Theorem C147_mixed_dag_gradient_of_another_function : forall fac bic dc n d X (F : rmat -> R) (G : rmat -> rmat),
  (forall W, lim_value_grad fac bic dc MixedDag n d X W = Ok (F W, G W)) ->
  (forall W, F W = - bic W) /\
  forall W, is_gradient d d (fun W => 1 / INR n * total n d (fun s j => (logaddexp0 (predict d X W s j) - X s j * predict d X W s j) + ln (cosh (X s j - predict d X W s j)))) W (G W).
Proof.
  intros fac bic dc n d X F G H. split; intro W; specialize (H W); cbn in H; injection H as E1 E2; [symmetry; exact E1|]. rewrite <- E2.
  apply (gradient_ext d d (fun W => 1 / INR n * total n d (fun s j => (logaddexp0 (predict d X W s j) - X s j * predict d X W s j) + ln (cosh (X s j - predict d X W s j)))) _ W
      (fun k j => 1 / INR n * tmul n X (fun s j => (sigmoid (predict d X W s j) - X s j) + - tanh (X s j - predict d X W s j)) k j)).
  - reflexivity.
  - intros i j _ _. f_equal. unfold tmul.
    rewrite (rsum_ext n _ (fun s => X s i * (sigmoid (predict d X W s j) - X s j) + -1 * (X s i * tanh (X s j - predict d X W s j)))) by (intros; ring).
    rewrite rsum_plus, rsum_scal. ring.
  - apply gradient_scal, (separable n d X W (fun s j m => (logaddexp0 m - X s j * m) + ln (cosh (X s j - m))) (fun s j m => (sigmoid m - X s j) + - tanh (X s j - m))).
    intros s j m _ _. apply (derivable_pt_lim_plus (fun m => logaddexp0 m - X s j * m) (fun m => ln (cosh (X s j - m)))); [apply d_logistic|apply d_laplace].
Qed.
Print Assumptions C147_mixed_dag_gradient_of_another_function.
Example C147_ex_mixed_dag : exists F G, forall W, lim_value_grad (fun _ => 1) (fun _ => 0) (fun _ => 1) MixedDag 2 2 lx W = Ok (F W, G W).
Proof. eexists; eexists; intro; reflexivity. Qed.
