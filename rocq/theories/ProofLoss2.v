(** * The losses of LiM: true gradients and values *)
From Coq Require Import Reals Lra Lia Arith Bool FunctionalExtensionality.
From Verif Require Import Prelude LibR SpecGrad ModelLoss ProofLoss.
Open Scope R_scope.

Lemma lim_laplace_gradient : forall fac bic dc n d X (F : rmat -> R) (G : rmat -> rmat),
  (forall W, lim_value_grad fac bic dc LaplaceM n d X W = Ok (F W, G W)) ->
  forall W, is_gradient d d F W (fun i j => - G W i j).
Proof.
  intros fac bic dc n d X F G H W. cbn in H.
  apply (gradient_ext d d (fun W => 1 / INR n * total n d (fun s j => ln (cosh (X s j - predict d X W s j)))) F W
      (fun k j => 1 / INR n * tmul n X (fun s j => - tanh (X s j - predict d X W s j)) k j) (fun i j => - G W i j)).
  - intro W'. specialize (H W'). injection H as E _. rewrite <- E.
    rewrite (total_ext n d (fun s j => - ln (cosh (X s j - predict d X W' s j))) (fun s j => -1 * ln (cosh (X s j - predict d X W' s j)))) by (intros; ring).
    rewrite total_scal. unfold Rdiv. ring.
  - intros i j _ _. specialize (H W). injection H as _ E. rewrite <- E, tmul_opp. unfold Rdiv. ring.
  - apply gradient_scal, (separable n d X W (fun s j m => ln (cosh (X s j - m))) (fun s j m => - tanh (X s j - m))). intros. apply d_laplace.
Qed.

Lemma lim_logistic_gradient : forall fac bic dc n d X (F : rmat -> R) (G : rmat -> rmat),
  (forall W, lim_value_grad fac bic dc LogisticM n d X W = Ok (F W, G W)) -> forall W, is_gradient d d F W (G W).
Proof.
  intros fac bic dc n d X F G H W. apply (lina_gradient Logistic n d X). exact H.
Qed.

(** The entries of the true gradient of the mixed loss. *)
Lemma lim_mixed_gradient : forall fac bic dc n d X (F : rmat -> R) (G : rmat -> rmat),
  (forall j, (j < d)%nat -> dc j = 0 \/ dc j = 1) ->
  (forall W, lim_value_grad fac bic dc MixedM n d X W = Ok (F W, G W)) ->
  forall W, is_gradient d d F W (fun k j => if is_one (dc j)
    then - (1 / INR n * tmul n X (fun s j => tanh (X s j - predict d X W s j)) k j)
    else - (1 / INR n * tmul n X (fun s j => sigmoid (predict d X W s j) - X s j) k j)).
Proof.
  intros fac bic dc n d X F G Hdc H W. cbn in H.
  apply (gradient_ext d d (fun W => - 1 / INR n * total n d (fun s j =>
     (logaddexp0 (predict d X W s j) - X s j * predict d X W s j) * Rabs (dc j - 1) + - ln (cosh (X s j - predict d X W s j)) * dc j)) F W
      (fun k j => - 1 / INR n * tmul n X (fun s j => (sigmoid (predict d X W s j) - X s j) * Rabs (dc j - 1) + tanh (X s j - predict d X W s j) * dc j) k j)).
  - intro W'. specialize (H W'). injection H as E _. rewrite <- E, total_plus. ring.
  - intros i j Hi Hj. unfold is_one. destruct (Req_EM_T (dc j) 1) as [E|NE].
    + unfold tmul. rewrite (rsum_ext n _ (fun s => X s i * tanh (X s j - predict d X W s j))).
      * unfold Rdiv. ring.
      * intros s _. rewrite E. replace (1 - 1) with 0 by ring. rewrite Rabs_R0. ring.
    + destruct (Hdc j Hj) as [E|E]; [|contradiction].
      unfold tmul. rewrite (rsum_ext n _ (fun s => X s i * (sigmoid (predict d X W s j) - X s j))).
      * unfold Rdiv. ring.
      * intros s _. rewrite E. replace (0 - 1) with (- (1)) by ring. rewrite Rabs_Ropp, Rabs_R1. ring.
  - apply gradient_scal, (separable n d X W (fun s j m => (logaddexp0 m - X s j * m) * Rabs (dc j - 1) + - ln (cosh (X s j - m)) * dc j)
      (fun s j m => (sigmoid m - X s j) * Rabs (dc j - 1) + tanh (X s j - m) * dc j)).
    intros s j m _ _.
    eapply dlim_val; [|apply (derivable_pt_lim_plus (fun m => (logaddexp0 m - X s j * m) * Rabs (dc j - 1)) (fun m => - ln (cosh (X s j - m)) * dc j))].
    2:{ apply (derivable_pt_lim_mult (fun m => logaddexp0 m - X s j * m) (fun _ => Rabs (dc j - 1))); [apply d_logistic|apply derivable_pt_lim_const]. }
    2:{ apply (derivable_pt_lim_mult (fun m => - ln (cosh (X s j - m))) (fun _ => dc j)); [|apply derivable_pt_lim_const].
        apply (derivable_pt_lim_opp (fun m => ln (cosh (X s j - m)))). apply d_laplace. }
    cbn beta. ring.
Qed.
(** What [_loss] returns at each entry, by kind of the cause [k] and of the effect [j]. *)
Lemma lim_mixed_entry : forall fac bic dc n d X W l G k j,
  lim_value_grad fac bic dc MixedM n d X W = Ok (l, G) ->
  (dc k = 0 \/ dc k = 1) -> (dc j = 0 \/ dc j = 1) ->
  let A := 1 / INR n * tmul n X (fun s j => sigmoid (predict d X W s j) - X s j) k j in
  let C := 1 / INR n * tmul n X (fun s j => tanh (X s j - predict d X W s j)) k j in
  (dc k = 1 -> dc j = 1 -> G k j = - C) /\ (dc k = 0 -> dc j = 0 -> G k j = A) /\
  (dc k <> dc j -> G k j = A - C).
Proof.
  intros fac bic dc n d X W l G k j H Hk Hj A C. cbn in H. injection H as _ E. rewrite <- E. unfold A, C, is_zero, is_one.
  repeat split.
  - intros -> ->. destruct (Req_EM_T 1 0); [lra|]. destruct (Req_EM_T 1 1); [|lra]. cbn. ring.
  - intros -> ->. destruct (Req_EM_T 0 1); [lra|]. destruct (Req_EM_T 0 0); [|lra]. cbn. ring.
  - intro D. destruct Hk as [Ek|Ek], Hj as [Ej|Ej]; try congruence; rewrite Ek, Ej;
      (destruct (Req_EM_T 1 0); [lra|]); (destruct (Req_EM_T 0 1); [lra|]);
      (destruct (Req_EM_T 0 0); [|lra]); (destruct (Req_EM_T 1 1); [|lra]); cbn; ring.
Qed.

Lemma lim_poisson_gradient : forall fac bic dc n d X (F : rmat -> R) (G : rmat -> rmat),
  (forall W, lim_value_grad fac bic dc PoissonM n d X W = Ok (F W, G W)) ->
  forall W, is_gradient d d F W (fun k j =>
    1 / INR n * (- tmul n X (fun s _ => rsum d (fun l => X s l)) k j + tmul n X (fun s j => exp (predict d X W s j)) k j)).
Proof.
  intros fac bic dc n d X F G H W. cbn in H.
  apply (gradient_ext d d (fun W => 1 / INR n * (total n d (fun s j => exp (predict d X W s j) - rsum d (fun l => X s l) * predict d X W s j)
      + total n d (fun s j => ln (fac (X s j))))) F W
      (fun k j => 1 / INR n * (tmul n X (fun s j => exp (predict d X W s j) - rsum d (fun l => X s l)) k j + 0))).
  - intro W'. specialize (H W'). injection H as E _. rewrite <- E. f_equal. f_equal.
    rewrite (total_ext n d _ (fun s j => exp (predict d X W' s j) + -1 * (rsum d (fun l => X s l) * predict d X W' s j))) by (intros; ring).
    rewrite total_plus, total_scal.
    assert (EQ : total d d (tmul n X (predict d X W')) = total n d (fun s j => rsum d (fun l => X s l) * predict d X W' s j)); [|rewrite EQ; ring].
    unfold total, tmul.
    rewrite (rsum_ext d _ (fun l => rsum n (fun s => rsum d (fun j => X s l * predict d X W' s j)))) by (intros; apply rsum_swap).
    rewrite rsum_swap. apply rsum_ext. intros s _. rewrite rsum_swap. apply rsum_ext. intros j _. apply rsum_scal_r.
  - intros k j _ _. f_equal. unfold tmul. rewrite Rplus_0_r, <- rsum_opp, <- rsum_plus. apply rsum_ext. intros; ring.
  - apply gradient_scal, gradient_plus; [|apply gradient_const].
    apply (separable n d X W (fun s j m => exp m - rsum d (fun l => X s l) * m) (fun s j m => exp m - rsum d (fun l => X s l))). intros. apply d_poisson.
Qed.

(** ** Uniqueness of gradients; moving against a gradient *)
Lemma gradient_unique : forall r c F W G G', is_gradient r c F W G -> is_gradient r c F W G' ->
  forall i j, (i < r)%nat -> (j < c)%nat -> G i j = G' i j.
Proof.
  intros r c F W G G' H H' i j Hi Hj.
  set (V := (fun a b => if ((a =? i) && (b =? j))%nat then 1 else 0) : rmat).
  assert (P : forall K : rmat, rsum r (fun a => rsum c (fun b => K a b * V a b)) = K i j).
  { intro K. rewrite (rsum_single r _ i Hi).
    - rewrite (rsum_single c _ j Hj); [unfold V; rewrite !Nat.eqb_refl; cbn; ring|].
      intros b _ Db. unfold V. rewrite Nat.eqb_refl. apply Nat.eqb_neq in Db. rewrite Db. cbn. ring.
    - intros a _ Da. apply rsum_0. intros b _. unfold V. apply Nat.eqb_neq in Da. rewrite Da. cbn. ring. }
  rewrite <- (P G), <- (P G'). apply (uniqueness_limite _ 0 _ _ (H V) (H' V)).
Qed.
Lemma dlim_rises : forall (f : R -> R) l, derivable_pt_lim f 0 l -> 0 < l -> exists e, 0 < e /\ forall t, 0 < t -> t < e -> f 0 < f t.
Proof.
  intros f l H Hl. destruct (H (l / 2) ltac:(lra)) as [d Hd]. exists d. split; [apply cond_pos|]. intros t H0 H1.
  assert (N : t <> 0) by lra. assert (A : Rabs t < d) by (rewrite Rabs_right; lra).
  pose proof (Hd t N A) as B. rewrite Rplus_0_l in B. apply Rabs_def2 in B. destruct B as [_ B].
  assert (P : 0 < (f t - f 0) / t) by lra.
  assert (Q : 0 < (f t - f 0) / t * t) by (apply Rmult_lt_0_compat; lra).
  replace ((f t - f 0) / t * t) with (f t - f 0) in Q by (field; exact N). lra.
Qed.
Lemma gradient_rises : forall r c F W G V, is_gradient r c F W G ->
  0 < rsum r (fun i => rsum c (fun j => G i j * V i j)) -> rises F W V.
Proof.
  intros r c F W G V H P. destruct (dlim_rises _ _ (H V) P) as [e [He K]]. exists e. split; [exact He|]. intros t H0 H1.
  specialize (K t H0 H1). rewrite at_zero in K. exact K.
Qed.
Lemma square_sum_pos : forall r c (G : rmat) i j, (i < r)%nat -> (j < c)%nat -> G i j <> 0 ->
  0 < rsum r (fun i => rsum c (fun j => G i j * G i j)).
Proof.
  intros r c G i j Hi Hj D.
  assert (A : forall a, 0 <= rsum c (fun b => G a b * G a b)) by (intro a; apply rsum_nonneg; intros; apply Rle_0_sqr).
  pose proof (rsum_ge_one r (fun a => rsum c (fun b => G a b * G a b)) i Hi ltac:(intros; apply A)).
  pose proof (rsum_ge_one c (fun b => G i b * G i b) j Hj ltac:(intros; apply Rle_0_sqr)). cbn beta in *.
  assert (0 < G i j * G i j) by (apply Rsqr_pos_lt; exact D). lra.
Qed.

(** ** The values as likelihoods *)
Lemma nll_binary_eq : forall x m, nll_binary x m = logaddexp0 m - x * m.
Proof.
  intros x m. unfold nll_binary, logaddexp0. rewrite exp_0. pose proof (exp_pos m).
  unfold Rdiv. rewrite !ln_mult, ln_Rinv, ln_1, ln_exp by (try apply Rinv_0_lt_compat; lra). ring.
Qed.
Lemma nll_cosh_eq : forall x m, nll_cosh x m = ln (cosh (x - m)).
Proof. intros. unfold nll_cosh. rewrite ln_Rinv by apply cosh_pos. ring. Qed.
Lemma nll_count_eq : forall fx x m, 0 < fx -> nll_count fx x m = exp m - x * m + ln fx.
Proof.
  intros fx x m H. unfold nll_count, Rdiv. pose proof (exp_pos (- exp m)). pose proof (exp_pos (x * m)).
  rewrite ln_mult, ln_mult, !ln_exp, ln_Rinv; try assumption; [ring| |apply Rinv_0_lt_compat; exact H].
  apply Rmult_lt_0_compat; assumption.
Qed.
Lemma logaddexp0_ge : forall m, 0 <= logaddexp0 m /\ m <= logaddexp0 m.
Proof.
  intro m. unfold logaddexp0. rewrite exp_0. pose proof (exp_pos m). split.
  - rewrite <- ln_1. destruct (Req_dec (exp m) 0); [lra|]. left. apply ln_increasing; lra.
  - rewrite <- (ln_exp m) at 1. left. apply ln_increasing; lra.
Qed.
