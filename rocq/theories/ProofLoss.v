(** * Gradients of the losses and of the augmented Lagrangian *)
From Coq Require Import Reals Lra Lia Arith Bool FunctionalExtensionality.
From Verif Require Import Prelude LibR SpecGrad ModelLoss.
Open Scope R_scope.

Lemma total_ext : forall n d A B, (forall s j, (s < n)%nat -> (j < d)%nat -> A s j = B s j) -> total n d A = total n d B.
Proof. intros n d A B H. apply rsum_ext. intros s Hs. apply rsum_ext. intros j Hj. apply H; assumption. Qed.
Lemma total_plus : forall n d A B, total n d (fun s j => A s j + B s j) = total n d A + total n d B.
Proof. intros. unfold total. rewrite <- rsum_plus. apply rsum_ext. intros. apply rsum_plus. Qed.
Lemma total_scal : forall n d c A, total n d (fun s j => c * A s j) = c * total n d A.
Proof. intros. unfold total. rewrite <- rsum_scal. apply rsum_ext. intros. apply rsum_scal. Qed.
Lemma total_swap : forall n d A, total n d A = total d n (fun j s => A s j).
Proof. intros. apply rsum_swap. Qed.
Lemma total_0 : forall n d A, (forall s j, (s < n)%nat -> (j < d)%nat -> A s j = 0) -> total n d A = 0.
Proof. intros n d A H. apply rsum_0. intros. apply rsum_0. intros. apply H; assumption. Qed.
Lemma dlim_total : forall n d (f : nat -> nat -> R -> R) x (l : rmat),
  (forall s j, (s < n)%nat -> (j < d)%nat -> derivable_pt_lim (f s j) x (l s j)) ->
  derivable_pt_lim (fun t => total n d (fun s j => f s j t)) x (total n d l).
Proof.
  intros n d f x l H. unfold total. apply (dlim_sum n (fun s t => rsum d (fun j => f s j t)) x (fun s => rsum d (l s))).
  intros s Hs. apply (dlim_sum d (fun j t => f s j t) x (l s)). intros j Hj. apply H; assumption.
Qed.

Lemma predict_line : forall d X W V t s j, predict d X (fun i j => W i j + t * V i j) s j = predict d X W s j + t * predict d X V s j.
Proof.
  intros. unfold predict. rewrite <- rsum_scal, <- rsum_plus. apply rsum_ext. intros. ring.
Qed.
Lemma predict_adjoint : forall n d X A V,
  total n d (fun s j => A s j * predict d X V s j) = total d d (fun k j => tmul n X A k j * V k j).
Proof.
  intros. unfold total, predict, tmul.
  rewrite (rsum_ext n _ (fun s => rsum d (fun j => rsum d (fun k => A s j * (X s k * V k j))))).
  2:{ intros s _. apply rsum_ext. intros j _. symmetry. apply rsum_scal. }
  rewrite rsum_swap.
  rewrite (rsum_ext d _ (fun j => rsum d (fun k => rsum n (fun s => A s j * (X s k * V k j))))) by (intros; apply rsum_swap).
  rewrite rsum_swap. apply rsum_ext. intros k _. apply rsum_ext. intros j _.
  rewrite <- rsum_scal_r. apply rsum_ext. intros; ring.
Qed.

Lemma dlim_line : forall m v, derivable_pt_lim (fun t => m + t * v) 0 v.
Proof.
  intros m v. apply (dlim_val _ _ (0 + (1 * v + 0 * 0))); [ring|].
  apply (derivable_pt_lim_plus (fun _ => m) (fun t => t * v)); [apply derivable_pt_lim_const|].
  apply (derivable_pt_lim_mult (fun t => t) (fun _ => v)); [apply derivable_pt_lim_id|apply derivable_pt_lim_const].
Qed.
Lemma dlim_along : forall phi m v l, derivable_pt_lim phi m l -> derivable_pt_lim (fun t => phi (m + t * v)) 0 (l * v).
Proof.
  intros phi m v l H. apply (derivable_pt_lim_comp (fun t => m + t * v) phi); [apply dlim_line|].
  replace (m + 0 * v) with m by ring. exact H.
Qed.
(** A separable loss: the gradient is [X.T @ phi']. *)
Lemma separable : forall n d X W (phi dphi : nat -> nat -> R -> R),
  (forall s j m, (s < n)%nat -> (j < d)%nat -> derivable_pt_lim (phi s j) m (dphi s j m)) ->
  is_gradient d d (fun W => total n d (fun s j => phi s j (predict d X W s j))) W
    (tmul n X (fun s j => dphi s j (predict d X W s j))).
Proof.
  intros n d X W phi dphi H V.
  apply (dlim_ext (fun t => total n d (fun s j => phi s j (predict d X W s j + t * predict d X V s j)))).
  { intro t. apply total_ext. intros s j _ _. rewrite predict_line. reflexivity. }
  eapply dlim_val; [|apply (dlim_total n d (fun s j t => phi s j (predict d X W s j + t * predict d X V s j)) 0
    (fun s j => dphi s j (predict d X W s j) * predict d X V s j))].
  - apply predict_adjoint.
  - intros s j Hs Hj. apply dlim_along. apply H; assumption.
Qed.
Lemma gradient_scal : forall r c F W G a, is_gradient r c F W G -> is_gradient r c (fun W => a * F W) W (fun i j => a * G i j).
Proof.
  intros r c F W G a H V. eapply dlim_val; [|apply (derivable_pt_lim_scal _ a), (H V)].
  rewrite <- rsum_scal. apply rsum_ext. intros i _. rewrite <- rsum_scal. apply rsum_ext. intros; ring.
Qed.
Lemma gradient_plus : forall r c F1 F2 W G1 G2, is_gradient r c F1 W G1 -> is_gradient r c F2 W G2 ->
  is_gradient r c (fun W => F1 W + F2 W) W (fun i j => G1 i j + G2 i j).
Proof.
  intros r c F1 F2 W G1 G2 H1 H2 V. eapply dlim_val; [|apply derivable_pt_lim_plus; [apply (H1 V)|apply (H2 V)]].
  rewrite <- rsum_plus. apply rsum_ext. intros i _. rewrite <- rsum_plus. apply rsum_ext. intros; ring.
Qed.
Lemma gradient_const : forall r c a W, is_gradient r c (fun _ => a) W (fun _ _ => 0).
Proof.
  intros r c a W V. eapply dlim_val; [|apply derivable_pt_lim_const].
  rewrite rsum_0; [reflexivity|]. intros. apply rsum_0. intros; ring.
Qed.
Lemma gradient_ext : forall r c F F' W G G', (forall W, F W = F' W) ->
  (forall i j, (i < r)%nat -> (j < c)%nat -> G i j = G' i j) -> is_gradient r c F W G -> is_gradient r c F' W G'.
Proof.
  intros r c F F' W G G' HF HG H V. eapply dlim_ext; [intro t; apply HF|]. eapply dlim_val; [|apply (H V)].
  apply rsum_ext. intros i Hi. apply rsum_ext. intros j Hj. rewrite HG; auto.
Qed.

(** ** The losses of one entry *)
Lemma exp_sum_pos : forall x, 0 < exp 0 + exp x.
Proof. intro x. pose proof (exp_pos 0). pose proof (exp_pos x). lra. Qed.
Lemma cosh_pos : forall x, 0 < cosh x.
Proof. intro x. unfold cosh. pose proof (exp_pos x). pose proof (exp_pos (- x)). lra. Qed.
Lemma d_logaddexp0 : forall m, derivable_pt_lim logaddexp0 m (sigmoid m).
Proof.
  intro m. unfold logaddexp0. eapply dlim_val; [|apply (derivable_pt_lim_comp (fun x => exp 0 + exp x) ln); [|apply derivable_pt_lim_ln, exp_sum_pos]].
  2:{ apply (derivable_pt_lim_plus (fun _ => exp 0) exp); [apply derivable_pt_lim_const|apply derivable_pt_lim_exp]. }
  unfold sigmoid. rewrite exp_0, exp_Ropp. pose proof (exp_pos m). field. lra.
Qed.
Lemma d_logcosh : forall x, derivable_pt_lim (fun x => ln (cosh x)) x (tanh x).
Proof.
  intro x. eapply dlim_val; [|apply (derivable_pt_lim_comp cosh ln); [apply derivable_pt_lim_cosh|apply derivable_pt_lim_ln, cosh_pos]].
  unfold tanh. pose proof (cosh_pos x). field. lra.
Qed.
Lemma d_sub : forall y m, derivable_pt_lim (fun m => y - m) m (-1).
Proof.
  intros y m. apply (dlim_val _ _ (0 - 1)); [ring|].
  apply (derivable_pt_lim_minus (fun _ => y) (fun m => m)); [apply derivable_pt_lim_const|apply derivable_pt_lim_id].
Qed.
Lemma d_l2 : forall y m, derivable_pt_lim (fun m => (y - m) ^ 2) m (-2 * (y - m)).
Proof.
  intros y m. eapply dlim_val; [|apply (derivable_pt_lim_comp (fun m => y - m) (fun x => x ^ 2)); [apply d_sub|apply (derivable_pt_lim_pow _ 2)]].
  cbn. ring.
Qed.
Lemma d_logistic : forall y m, derivable_pt_lim (fun m => logaddexp0 m - y * m) m (sigmoid m - y).
Proof.
  intros y m. apply (derivable_pt_lim_minus logaddexp0 (fun m => y * m)); [apply d_logaddexp0|].
  apply (dlim_val _ _ (y * 1)); [ring|]. apply (derivable_pt_lim_scal (fun m => m)). apply derivable_pt_lim_id.
Qed.
Lemma d_poisson : forall y m, derivable_pt_lim (fun m => exp m - y * m) m (exp m - y).
Proof.
  intros y m. apply (derivable_pt_lim_minus exp (fun m => y * m)); [apply derivable_pt_lim_exp|].
  apply (dlim_val _ _ (y * 1)); [ring|]. apply (derivable_pt_lim_scal (fun m => m)). apply derivable_pt_lim_id.
Qed.
Lemma d_laplace : forall y m, derivable_pt_lim (fun m => ln (cosh (y - m))) m (- tanh (y - m)).
Proof.
  intros y m. eapply dlim_val; [|apply (derivable_pt_lim_comp (fun m => y - m) (fun x => ln (cosh x))); [apply d_sub|apply d_logcosh]].
  ring.
Qed.

Lemma tmul_scal : forall n X c A k j, tmul n X (fun s j => c * A s j) k j = c * tmul n X A k j.
Proof. intros. unfold tmul. rewrite <- rsum_scal. apply rsum_ext. intros; ring. Qed.
Lemma tmul_opp : forall n X A k j, tmul n X (fun s j => - A s j) k j = - tmul n X A k j.
Proof. intros. unfold tmul. rewrite <- rsum_opp. apply rsum_ext. intros; ring. Qed.

Lemma lina_gradient : forall lt n d f (F : rmat -> R) (G : rmat -> rmat),
  (forall W, lina_value_grad lt n d f W = Ok (F W, G W)) -> forall W, is_gradient d d F W (G W).
Proof.
  intros lt n d f F G H W.
  assert (HF : forall W, lina_value_grad lt n d f W = Ok (F W, G W)) by exact H.
  destruct lt; cbn in H; try (specialize (H W); discriminate).
  - apply (gradient_ext d d (fun W => 0.5 / INR n * total n d (fun s j => (f s j - predict d f W s j) ^ 2)) F W
      (fun k j => 0.5 / INR n * tmul n f (fun s j => -2 * (f s j - predict d f W s j)) k j) (G W)).
    + intro W'. specialize (H W'). injection H as E _. exact E.
    + intros i j _ _. specialize (H W). injection H as _ E. rewrite <- E, tmul_scal. unfold Rdiv. lra.
    + apply gradient_scal, (separable n d f W (fun s j m => (f s j - m) ^ 2) (fun s j m => -2 * (f s j - m))). intros. apply d_l2.
  - apply (gradient_ext d d (fun W => 1 / INR n * total n d (fun s j => logaddexp0 (predict d f W s j) - f s j * predict d f W s j)) F W
      (fun k j => 1 / INR n * tmul n f (fun s j => sigmoid (predict d f W s j) - f s j) k j) (G W)).
    + intro W'. specialize (H W'). injection H as E _. exact E.
    + intros i j _ _. specialize (H W). injection H as _ E. rewrite <- E. reflexivity.
    + apply gradient_scal, (separable n d f W (fun s j m => logaddexp0 m - f s j * m) (fun s j m => sigmoid m - f s j)). intros. apply d_logistic.
  - apply (gradient_ext d d (fun W => 1 / INR n * total n d (fun s j => exp (predict d f W s j) - f s j * predict d f W s j)) F W
      (fun k j => 1 / INR n * tmul n f (fun s j => exp (predict d f W s j) - f s j) k j) (G W)).
    + intro W'. specialize (H W'). injection H as E _. exact E.
    + intros i j _ _. specialize (H W). injection H as _ E. rewrite <- E. reflexivity.
    + apply gradient_scal, (separable n d f W (fun s j m => exp m - f s j * m) (fun s j m => exp m - f s j)). intros. apply d_poisson.
  - apply (gradient_ext d d (fun W => -1 * total n d (fun s j => -1 * ln (cosh (f s j - predict d f W s j)))) F W
      (fun k j => -1 * tmul n f (fun s j => -1 * - tanh (f s j - predict d f W s j)) k j) (G W)).
    + intro W'. specialize (H W'). injection H as E _. rewrite <- E.
      rewrite (total_ext n d _ (fun s j => - ln (cosh (f s j - predict d f W' s j)))) by (intros; ring). ring.
    + intros i j _ _. specialize (H W). injection H as _ E. rewrite <- E, tmul_scal, tmul_opp. ring.
    + apply gradient_scal, (separable n d f W (fun s j m => -1 * ln (cosh (f s j - m))) (fun s j m => -1 * - tanh (f s j - m))).
      intros s j m _ _. apply (derivable_pt_lim_scal (fun m => ln (cosh (f s j - m))) (-1)). apply d_laplace.
Qed.

(** ** The acyclicity function *)
Definition mlim (d : nat) (A : R -> rmat) (A' : rmat) : Prop :=
  forall i j, (i < d)%nat -> (j < d)%nat -> derivable_pt_lim (fun t => A t i j) 0 (A' i j).
Lemma mlim_mul : forall d A A' B B', mlim d A A' -> mlim d B B' ->
  mlim d (fun t => rmul d (A t) (B t)) (fun i j => rmul d A' (B 0) i j + rmul d (A 0) B' i j).
Proof.
  intros d A A' B B' HA HB i j Hi Hj. unfold rmul. rewrite <- rsum_plus.
  apply (dlim_sum d (fun k t => A t i k * B t k j) 0 (fun k => A' i k * B 0 k j + A 0 i k * B' k j)).
  intros k Hk. apply (derivable_pt_lim_mult (fun t => A t i k) (fun t => B t k j)); [apply HA|apply HB]; assumption.
Qed.
(** The derivative of a power. *)
Fixpoint dpow (d : nat) (A A' : rmat) (k : nat) : rmat :=
  match k with O => fun _ _ => 0 | S k => fun i j => rmul d A' (rpow d A k) i j + rmul d A (dpow d A A' k) i j end.
Lemma mlim_pow : forall d A A' k, mlim d A A' -> mlim d (fun t => rpow d (A t) k) (dpow d (A 0) A' k).
Proof.
  intros d A A' k H. induction k as [|k IH]; cbn [rpow dpow].
  - intros i j _ _. apply derivable_pt_lim_const.
  - apply (mlim_mul d A A' (fun t => rpow d (A t) k)); assumption.
Qed.
Lemma rmul_plus_r : forall d C A B, req d (rmul d C (fun i j => A i j + B i j)) (fun i j => rmul d C A i j + rmul d C B i j).
Proof. intros d C A B i j _ _. unfold rmul. rewrite <- rsum_plus. apply rsum_ext. intros; ring. Qed.
Lemma rtrace_plus : forall d A B, rtrace d (fun i j => A i j + B i j) = rtrace d A + rtrace d B.
Proof. intros. apply rsum_plus. Qed.
Lemma trace_dpow : forall d A A' k C, req d (rmul d C A) (rmul d A C) ->
  rtrace d (rmul d C (dpow d A A' k)) = INR k * rtrace d (rmul d (rmul d C (rpow d A (k - 1))) A').
Proof.
  intros d A A' k. induction k as [|k IH]; intros C HC.
  - cbn [dpow]. cbn [INR]. rewrite Rmult_0_l. unfold rtrace, rmul. apply rsum_0. intros. apply rsum_0. intros; ring.
  - cbn [dpow]. rewrite (rtrace_ext d _ _ (rmul_plus_r d C (rmul d A' (rpow d A k)) (rmul d A (dpow d A A' k)))), rtrace_plus.
    rewrite <- (rtrace_ext d _ _ (rmul_assoc d C A (dpow d A A' k))).
    rewrite (IH (rmul d C A)).
    2:{ eapply req_trans; [apply rmul_ext; [exact HC|apply req_refl]|]. apply rmul_assoc. }
    replace (S k - 1)%nat with k by lia.
    assert (E1 : rtrace d (rmul d C (rmul d A' (rpow d A k))) = rtrace d (rmul d (rmul d C (rpow d A k)) A')).
    { rewrite <- (rtrace_ext d _ _ (rmul_assoc d C A' (rpow d A k))).
      rewrite (rtrace_comm d (rmul d C A')).
      rewrite <- (rtrace_ext d _ _ (rmul_assoc d (rpow d A k) C A')).
      apply rtrace_ext. apply rmul_ext; [|apply req_refl].
      clear -HC. induction k as [|k IH]; cbn [rpow].
      - eapply req_trans; [apply rmul_id_l|apply req_sym, rmul_id_r].
      - eapply req_trans; [apply rmul_assoc|]. eapply req_trans; [apply rmul_ext; [apply req_refl|exact IH]|].
        eapply req_trans; [apply req_sym, rmul_assoc|]. eapply req_trans; [apply rmul_ext; [apply req_sym, HC|apply req_refl]|].
        apply rmul_assoc. }
    rewrite E1, S_INR. destruct k as [|k].
    + cbn [INR]. ring.
    + replace (S k - 1)%nat with k by lia.
      rewrite (rtrace_ext d (rmul d (rmul d (rmul d C A) (rpow d A k)) A') (rmul d (rmul d C (rpow d A (S k))) A')); [ring|].
      apply rmul_ext; [apply rmul_assoc|apply req_refl].
Qed.
Lemma h_trace : forall d W, (0 < d)%nat -> h_value d W = rtrace d (rpow d (h_base d W) d) - INR d.
Proof.
  intros d W Hd. unfold h_value, h_power. f_equal. unfold total. rewrite rsum_swap.
  assert (E : req d (rpow d (h_base d W) d) (rmul d (rpow d (h_base d W) (d - 1)) (h_base d W))).
  { eapply req_trans; [|apply req_sym, rpow_comm]. assert (G : forall B k m, m = S k -> req d (rpow d B m) (rmul d B (rpow d B k))) by (intros B k m ->; apply req_refl).
    apply G. lia. }
  rewrite (rtrace_ext _ _ _ E). apply rsum_ext. intros i _. reflexivity.
Qed.
Lemma h_gradient : forall d W, (0 < d)%nat -> is_gradient d d (h_value d) W (fun i j => h_power d W j i * W i j * 2).
Proof.
  intros d W Hd V. set (A := fun t => h_base d (fun i j => W i j + t * V i j)).
  apply (dlim_ext (fun t => rtrace d (rpow d (A t) d) - INR d)); [intro t; symmetry; apply h_trace; exact Hd|].
  set (A' := fun i j => 2 * W i j * V i j / INR d).
  assert (HA : mlim d A A').
  { intros i j _ _. unfold A, A', h_base.
    apply (dlim_ext (fun t => rid i j + (W i j + t * V i j) * (W i j + t * V i j) * / INR d)); [intro; reflexivity|].
    eapply dlim_val; [|apply (derivable_pt_lim_plus (fun _ => rid i j)); [apply derivable_pt_lim_const|]].
    2:{ apply (derivable_pt_lim_mult (fun t => (W i j + t * V i j) * (W i j + t * V i j)) (fun _ => / INR d)); [|apply derivable_pt_lim_const].
        apply (derivable_pt_lim_mult (fun t => W i j + t * V i j) (fun t => W i j + t * V i j)); apply dlim_line. }
    unfold Rdiv. ring. }
  assert (HP := mlim_pow d A A' d HA).
  assert (EA : req d (A 0) (h_base d W)).
  { intros i j _ _. unfold A, h_base. unfold Rdiv. ring. }
  eapply dlim_val; [|apply (derivable_pt_lim_minus (fun t => rtrace d (rpow d (A t) d)) (fun _ => INR d));
    [apply (dlim_sum d (fun i t => rpow d (A t) d i i) 0 (fun i => dpow d (A 0) A' d i i)); intros i Hi; apply HP; exact Hi
    |apply derivable_pt_lim_const]].
  change (rsum d (fun i => dpow d (A 0) A' d i i)) with (rtrace d (dpow d (A 0) A' d)).
  rewrite <- (rtrace_ext d _ _ (rmul_id_l d (dpow d (A 0) A' d))).
  rewrite trace_dpow by (eapply req_trans; [apply rmul_id_l|apply req_sym, rmul_id_r]).
  rewrite Rminus_0_r, (rtrace_ext d _ (rmul d (h_power d W) A')).
  2:{ apply rmul_ext; [|apply req_refl]. eapply req_trans; [apply rmul_id_l|]. unfold h_power.
      clear -EA. induction (d - 1)%nat as [|k IH]; cbn [rpow]; [apply req_refl|]. apply rmul_ext; assumption. }
  unfold rtrace, rmul. rewrite rsum_swap, <- rsum_scal. apply rsum_ext. intros i _. rewrite <- rsum_scal. apply rsum_ext. intros j _.
  unfold A'. assert (INR d <> 0) by (apply not_0_INR; lia). field. assumption.
Qed.

(** ** The doubled variables *)
Lemma rsum_grid : forall r c f, rsum (r * c) f = rsum r (fun i => rsum c (fun j => f (i * c + j)%nat)).
Proof.
  induction r as [|r IH]; intros c f; [reflexivity|]. replace (S r * c)%nat with (r * c + c)%nat by lia.
  rewrite rsum_split, IH. reflexivity.
Qed.
Lemma concat2_lo : forall d A B i j, (i < d)%nat -> (j < d)%nat -> concat2 d A B (i * d + j) = A i j.
Proof.
  intros d A B i j Hi Hj. unfold concat2. destruct (Nat.ltb_spec (i * d + j) (d * d)); [|nia].
  rewrite (Nat.div_add_l i d j), (Nat.add_comm (i * d) j), Nat.mod_add, Nat.div_small, Nat.mod_small by lia.
  rewrite Nat.add_0_r. reflexivity.
Qed.
Lemma concat2_hi : forall d A B i j, (i < d)%nat -> (j < d)%nat -> concat2 d A B (d * d + (i * d + j)) = B i j.
Proof.
  intros d A B i j Hi Hj. unfold concat2. destruct (Nat.ltb_spec (d * d + (i * d + j)) (d * d)); [nia|].
  replace (d * d + (i * d + j) - d * d)%nat with (i * d + j)%nat by lia.
  rewrite (Nat.div_add_l i d j), (Nat.add_comm (i * d) j), Nat.mod_add, Nat.div_small, Nat.mod_small by lia.
  rewrite Nat.add_0_r. reflexivity.
Qed.
Lemma adj_line : forall d w v t, adj_of d (fun k => w k + t * v k) = (fun i j => adj_of d w i j + t * adj_of d v i j).
Proof. intros. extensionality i. extensionality j. unfold adj_of. ring. Qed.
Lemma at_zero : forall (W V : rmat), (fun i j => W i j + 0 * V i j) = W.
Proof. intros. extensionality i. extensionality j. ring. Qed.

Lemma func_gradient : forall loss rho alpha lambda1 d (L : rmat -> R) (D : rmat -> rmat), (0 < d)%nat ->
  (forall W, loss W = Ok (L W, D W)) -> (forall W, is_gradient d d L W (D W)) ->
  forall (F : (nat -> R) -> R) (G : (nat -> R) -> nat -> R),
  (forall w, func loss rho alpha lambda1 d w = Ok (F w, G w)) -> forall w, is_gradient_vec (2 * (d * d)) F w (G w).
Proof.
  intros loss rho alpha lambda1 d L D Hd HL HD F G H w v.
  assert (EF : forall w, F w = L (adj_of d w) + 0.5 * rho * h_value d (adj_of d w) * h_value d (adj_of d w)
                            + alpha * h_value d (adj_of d w) + lambda1 * rsum (2 * (d * d)) w).
  { intro w'. specialize (H w'). unfold func in H. rewrite HL in H. cbn [bind] in H. injection H as E _. symmetry. exact E. }
  assert (EG : G w = concat2 d
     (fun i j => D (adj_of d w) i j + (rho * h_value d (adj_of d w) + alpha) * h_power d (adj_of d w) j i * adj_of d w i j * 2 + lambda1)
     (fun i j => - (D (adj_of d w) i j + (rho * h_value d (adj_of d w) + alpha) * h_power d (adj_of d w) j i * adj_of d w i j * 2) + lambda1)).
  { specialize (H w). unfold func in H. rewrite HL in H. cbn [bind] in H. injection H as _ E. symmetry. exact E. }
  set (W := adj_of d w) in *. set (V := adj_of d v).
  set (line := fun t => (fun i j => W i j + t * V i j) : rmat).
  apply (dlim_ext (fun t => L (line t) + 0.5 * rho * (h_value d (line t) * h_value d (line t)) + alpha * h_value d (line t)
                            + lambda1 * rsum (2 * (d * d)) (fun k => w k + t * v k))).
  { intro t. rewrite EF, adj_line. unfold line, W, V. ring. }
  assert (HL' : derivable_pt_lim (fun t => L (line t)) 0 _) by apply (HD W V).
  assert (HH : derivable_pt_lim (fun t => h_value d (line t)) 0 _) by apply (h_gradient d W Hd V).
  assert (HS : derivable_pt_lim (fun t => rsum (2 * (d * d)) (fun k => w k + t * v k)) 0 (rsum (2 * (d * d)) v)).
  { apply (dlim_sum _ (fun k t => w k + t * v k) 0 v). intros k _. apply dlim_line. }
  eapply dlim_val; [|apply (derivable_pt_lim_plus (fun t => L (line t) + 0.5 * rho * (h_value d (line t) * h_value d (line t)) + alpha * h_value d (line t)));
    [apply (derivable_pt_lim_plus (fun t => L (line t) + 0.5 * rho * (h_value d (line t) * h_value d (line t))));
      [apply (derivable_pt_lim_plus (fun t => L (line t))); [exact HL'|]|]|]].
  2:{ apply (derivable_pt_lim_scal (fun t => h_value d (line t) * h_value d (line t))).
      apply (derivable_pt_lim_mult (fun t => h_value d (line t)) (fun t => h_value d (line t))); exact HH. }
  2:{ apply (derivable_pt_lim_scal (fun t => h_value d (line t))). exact HH. }
  2:{ apply (derivable_pt_lim_scal (fun t => rsum (2 * (d * d)) (fun k => w k + t * v k))). exact HS. }
  assert (E0 : line 0 = W) by apply at_zero. rewrite E0. clear HL' HH HS.
  set (h := h_value d W) in *. set (E := h_power d W) in *.
  replace (2 * (d * d))%nat with (d * d + d * d)%nat by lia. rewrite !rsum_split, !rsum_grid. rewrite EG.
  set (S1 := rsum d (fun i => rsum d (fun j => v (i * d + j)%nat))).
  set (S2 := rsum d (fun i => rsum d (fun j => v (d * d + (i * d + j))%nat))).
  set (SD := rsum d (fun i => rsum d (fun j => D W i j * V i j))).
  set (SH := rsum d (fun i => rsum d (fun j => E j i * W i j * 2 * V i j))).
  transitivity (SD + (rho * h + alpha) * SH + lambda1 * (S1 + S2)); [unfold S1, S2; lra|].
  unfold SD, SH, S1, S2. rewrite <- rsum_scal, <- rsum_plus, <- rsum_plus, <- rsum_scal, <- rsum_plus, <- rsum_plus.
  apply rsum_ext. intros i Hi. rewrite <- rsum_scal, <- rsum_plus, <- rsum_plus, <- rsum_scal, <- rsum_plus, <- rsum_plus.
  apply rsum_ext. intros j Hj. rewrite concat2_lo, concat2_hi by assumption. unfold V, adj_of. ring.
Qed.
