(** * The score of LiM's local search: continuous and count variables *)
From Coq Require Import Reals ZArith Lra Lia Arith Bool List FunctionalExtensionality.
From Verif Require Import Prelude LibR SpecBic ModelBic ProofBic.
Import ListNotations.
Open Scope R_scope.

Lemma sqrt2_pos : 0 < sqrt 2. Proof. apply sqrt_lt_R0. lra. Qed.
Lemma sqrt2_sq : sqrt 2 * sqrt 2 = 2. Proof. apply sqrt_sqrt. lra. Qed.

(** ** The Laplace density *)
Definition lap_prim (c k x : R) : R := if Rle_dec x 0 then c / k * exp (k * x) else c / k * (2 - exp (- k * x)).
Lemma d_exp_lin : forall k x, derivable_pt_lim (fun t => exp (k * t)) x (k * exp (k * x)).
Proof.
  intros k x. rewrite Rmult_comm. apply (derivable_pt_lim_comp (fun t => k * t) exp x k (exp (k * x))); [|apply derivable_pt_lim_exp].
  apply (dlim_val _ x (k * 1)); [ring|]. apply (derivable_pt_lim_scal id k x 1). apply derivable_pt_lim_id.
Qed.
Lemma d_right : forall c k x, k <> 0 -> derivable_pt_lim (fun t => c / k * (2 - exp (- k * t))) x (c * exp (- k * x)).
Proof.
  intros c k x Hk. apply (dlim_val _ x (c / k * (0 - - k * exp (- k * x)))); [field; exact Hk|].
  apply (derivable_pt_lim_scal (fun t => 2 - exp (- k * t)) (c / k)). apply (derivable_pt_lim_minus (fun _ => 2) (fun t => exp (- k * t))); [apply derivable_pt_lim_const|apply d_exp_lin].
Qed.
Lemma d_left : forall c k x, k <> 0 -> derivable_pt_lim (fun t => c / k * exp (k * t)) x (c * exp (k * x)).
Proof.
  intros c k x Hk. apply (dlim_val _ x (c / k * (k * exp (k * x)))); [field; exact Hk|].
  apply (derivable_pt_lim_scal (fun t => exp (k * t)) (c / k)). apply d_exp_lin.
Qed.
Lemma d_lap : forall c k x, 0 < k -> derivable_pt_lim (lap_prim c k) x (c * exp (- k * Rabs x)).
Proof.
  intros c k x Hk. assert (Hk' : k <> 0) by lra. destruct (Rtotal_order x 0) as [L|[E|G] ].
  - intros eps He. assert (A : c * exp (- k * Rabs x) = c * exp (k * x)) by (rewrite Rabs_left by exact L; do 2 f_equal; ring). rewrite A.
    destruct (d_left c k x Hk' eps He) as [dl Hd]. assert (M : 0 < Rmin dl (- x)) by (apply Rmin_pos; [apply cond_pos|lra]). exists (mkposreal _ M). intros h Hh Hs. cbn in Hs.
    assert (Rabs h < dl) by (eapply Rlt_le_trans; [exact Hs|apply Rmin_l]). assert (Rabs h < - x) by (eapply Rlt_le_trans; [exact Hs|apply Rmin_r]).
    pose proof (Rle_abs h). unfold lap_prim. destruct (Rle_dec (x + h) 0); [|lra]. destruct (Rle_dec x 0); [|lra]. apply Hd; assumption.
  - subst x. rewrite Rabs_R0, Rmult_0_r, exp_0, Rmult_1_r. intros eps He.
    pose proof (d_left c k 0 Hk') as DL. pose proof (d_right c k 0 Hk') as DR. rewrite !Rmult_0_r, exp_0, Rmult_1_r in DL, DR.
    destruct (DL eps He) as [d1 H1]. destruct (DR eps He) as [d2 H2]. assert (M : 0 < Rmin d1 d2) by (apply Rmin_pos; apply cond_pos). exists (mkposreal _ M). intros h Hh Hs. cbn in Hs.
    assert (S1 : Rabs h < d1) by (eapply Rlt_le_trans; [exact Hs|apply Rmin_l]). assert (S2 : Rabs h < d2) by (eapply Rlt_le_trans; [exact Hs|apply Rmin_r]).
    unfold lap_prim. destruct (Rle_dec 0 0) as [_|N]; [|lra]. destruct (Rle_dec (0 + h) 0) as [L|L].
    + apply H1; assumption.
    + specialize (H2 h Hh S2). cbn beta in H2. rewrite !Rmult_0_r, exp_0 in *. replace (c / k * (2 - 1)) with (c / k * 1) in H2 by ring. exact H2.
  - intros eps He. assert (A : c * exp (- k * Rabs x) = c * exp (- k * x)) by (rewrite Rabs_right by lra; reflexivity). rewrite A.
    destruct (d_right c k x Hk' eps He) as [dl Hd]. assert (M : 0 < Rmin dl x) by (apply Rmin_pos; [apply cond_pos|lra]). exists (mkposreal _ M). intros h Hh Hs. cbn in Hs.
    assert (Rabs h < dl) by (eapply Rlt_le_trans; [exact Hs|apply Rmin_l]). assert (Rabs h < x) by (eapply Rlt_le_trans; [exact Hs|apply Rmin_r]).
    pose proof (Rle_abs (- h)) as Q. rewrite Rabs_Ropp in Q. unfold lap_prim. destruct (Rle_dec (x + h) 0); [lra|]. destruct (Rle_dec x 0); [lra|]. apply Hd; assumption.
Qed.
Lemma exp_small : forall k eps, 0 < k -> 0 < eps -> forall x, / (k * eps) <= x -> exp (- k * x) < eps.
Proof.
  intros k eps Hk He x Hx. assert (P : 0 < / (k * eps)) by (apply Rinv_0_lt_compat, Rmult_lt_0_compat; assumption).
  replace (- k * x) with (- (k * x)) by ring. rewrite exp_Ropp. assert (Q : k * x < exp (k * x)).
  { assert (0 < k * x) by (apply Rmult_lt_0_compat; lra). pose proof (exp_ineq1 (k * x) ltac:(lra)). lra. }
  assert (K : / eps <= k * x). { apply (Rmult_le_compat_l k) in Hx; [|lra]. eapply Rle_trans; [|exact Hx]. apply Req_le. field. lra. }
  rewrite <- (Rinv_inv eps). apply Rinv_lt_contravar; [|lra]. apply Rmult_lt_0_compat; [apply Rinv_0_lt_compat; exact He|apply exp_pos].
Qed.
Lemma lap_mass : forall c k, 0 < k -> 0 < c -> total_mass (fun s => c * exp (- k * Rabs s)) (2 * c / k).
Proof.
  intros c k Hk Hc. exists (lap_prim c k). split; [intro x; apply d_lap; exact Hk|]. intros eps He.
  set (e := eps * k / (2 * c)). assert (Pe : 0 < e) by (unfold e; apply Rdiv_lt_0_compat; [apply Rmult_lt_0_compat|]; lra).
  assert (PT : 0 < / (k * e)) by (apply Rinv_0_lt_compat, Rmult_lt_0_compat; assumption). exists (/ (k * e)). intros a b Ha Hb.
  unfold lap_prim. destruct (Rle_dec b 0); [lra|]. destruct (Rle_dec a 0); [|lra].
  pose proof (exp_small k e Hk Pe b Hb) as Eb. pose proof (exp_small k e Hk Pe (- a) ltac:(lra)) as Ea. replace (- k * - a) with (k * a) in Ea by ring.
  pose proof (exp_pos (- k * b)) as P1. pose proof (exp_pos (k * a)) as P2. assert (Ck : 0 < c / k) by (apply Rdiv_lt_0_compat; assumption).
  replace (c / k * (2 - exp (- k * b)) - c / k * exp (k * a) - 2 * c / k) with (- (c / k * (exp (- k * b) + exp (k * a)))) by (field; lra).
  rewrite Rabs_Ropp, Rabs_right by (apply Rle_ge, Rmult_le_pos; lra).
  apply Rlt_le_trans with (c / k * (2 * e)); [apply Rmult_lt_compat_l; lra|]. unfold e. apply Req_le. field. lra.
Qed.
(** An integral is unique. *)
Lemma mass_unique : forall f m1 m2, total_mass f m1 -> total_mass f m2 -> m1 = m2.
Proof.
  intros f m1 m2 (F & DF & LF) (G & DG & LG).
  assert (C : forall a b, a < b -> F b - F a = G b - G a).
  { intros a b Hab. set (H := fun t => F t - G t). assert (DH : forall t, derivable_pt_lim H t 0).
    { intro t. replace 0 with (f t - f t) by ring. apply derivable_pt_lim_minus; [apply DF|apply DG]. }
    assert (pr : derivable H) by (intro t; exists 0; apply DH).
    assert (K : constant H). { apply (null_derivative_1 H pr). intro t. unfold derive, derive_pt. destruct (pr t) as [l Hl]. cbn. apply (uniqueness_limite H t); [exact Hl|apply DH]. }
    pose proof (K b a) as Q. unfold H in Q. lra. }
  destruct (Req_dec m1 m2) as [E|N]; [exact E|]. exfalso. set (eps := Rabs (m1 - m2) / 2). assert (He : 0 < eps) by (unfold eps; pose proof (Rabs_pos_lt (m1 - m2) ltac:(lra)); lra).
  destruct (LF eps He) as [T1 H1]. destruct (LG eps He) as [T2 H2]. set (T := Rmax (Rmax T1 T2) 1). assert (T1 <= T /\ T2 <= T /\ 1 <= T) as (A1 & A2 & A3).
  { pose proof (Rmax_l (Rmax T1 T2) 1). pose proof (Rmax_r (Rmax T1 T2) 1). pose proof (Rmax_l T1 T2). pose proof (Rmax_r T1 T2). unfold T. lra. }
  specialize (H1 (- T) T ltac:(lra) ltac:(lra)). specialize (H2 (- T) T ltac:(lra) ltac:(lra)). rewrite <- (C (- T) T ltac:(lra)) in H2.
  set (z := F T - F (- T)) in *. pose proof (Rabs_triang (z - m2) (- (z - m1))) as Tr. rewrite Rabs_Ropp in Tr. replace (z - m2 + - (z - m1)) with (m1 - m2) in Tr by ring. unfold eps in *. lra.
Qed.
Lemma sqrt2_below_exp : sqrt 2 < exp (35 / 100).
Proof.
  apply Rsqr_incrst_0; [|left; apply sqrt2_pos|left; apply exp_pos]. unfold Rsqr. rewrite sqrt2_sq, <- exp_plus.
  assert (B : forall x, 0 < x -> 1 + x < exp x) by (intros x Hx; pose proof (exp_ineq1 x ltac:(lra)); lra).
  set (q := exp (7 / 640)). assert (Q : 1 + 7 / 640 < q) by (apply B; lra).
  assert (S : forall x, exp (2 * x) = exp x * exp x) by (intro x; rewrite <- exp_plus; f_equal; ring).
  replace (35 / 100 + 35 / 100) with (2 * (2 * (2 * (2 * (2 * (2 * (7 / 640))))))) by lra. rewrite !S. fold q.
  set (a0 := 1 + 7 / 640) in *.
  assert (M : forall u v w, 0 < u -> u < v -> w <= u * u -> w < v * v) by (intros u v w P1 P2 P3; assert (u * u < v * v) by (apply Rmult_gt_0_lt_compat; lra); lra).
  assert (Q1 : 1.02199 < q * q) by (apply (M a0); unfold a0 in *; lra).
  assert (Q2 : 1.04446 < q * q * (q * q)) by (apply (M 1.02199); lra).
  assert (Q3 : 1.09089 < q * q * (q * q) * (q * q * (q * q))) by (apply (M 1.04446); lra).
  assert (Q4 : 1.19004 < q * q * (q * q) * (q * q * (q * q)) * (q * q * (q * q) * (q * q * (q * q)))) by (apply (M 1.09089); lra).
  set (p := q * q * (q * q) * (q * q * (q * q)) * (q * q * (q * q) * (q * q * (q * q)))) in *.
  assert (Q5 : 1.41619 < p * p) by (apply (M 1.19004); lra). pose proof (M 1.41619 (p * p) 2.0055 ltac:(lra) Q5 ltac:(lra)) as Q6. lra.
Qed.

(** ** Continuous variables *)
Lemma variance_nonneg : forall n d X i b, 0 <= variance_i n d X i b.
Proof.
  intros n d X i b. unfold variance_i. destruct n as [|n]; [cbn; unfold Rdiv; rewrite Rmult_0_l; lra|].
  apply Rmult_le_pos; [apply rsum_nonneg; intros; apply pow2_ge_0|left; apply Rinv_0_lt_compat, lt_0_INR; lia].
Qed.
Lemma ln_laplace : forall sigma z, 0 < sigma -> ln (laplace sigma z) = - sqrt 2 * Rabs z / sigma - ln (sqrt 2) - ln sigma.
Proof.
  intros sigma z H. unfold laplace, Rdiv at 1. pose proof sqrt2_pos.
  rewrite ln_mult, ln_exp, ln_Rinv, ln_mult; [ring|assumption|assumption|apply Rmult_lt_0_compat; assumption|apply exp_pos|apply Rinv_0_lt_compat, Rmult_lt_0_compat; assumption].
Qed.
Lemma likelihood_laplace : forall n d X i b b0 v, likelihood_i n d X i b b0 = Some v ->
  0 < variance_i n d X i b /\
  v = rsum n (fun s => ln (laplace (sqrt (variance_i n d X i b)) (disturbance d X i b s - b0))) + INR n * (ln (sqrt 2) - 35 / 100).
Proof.
  intros n d X i b b0 v H. unfold likelihood_i in H. pose proof (variance_nonneg n d X i b) as P. set (var := variance_i n d X i b) in *.
  destruct (Req_EM_T var 0) as [|N]; [discriminate|]. injection H as <-. assert (V : 0 < var) by lra. split; [exact V|]. pose proof (sqrt_lt_R0 var V) as S.
  rewrite (rsum_ext n (fun s => ln (laplace _ _)) (fun s => log_p_super_gaussian ((disturbance d X i b s - b0) / sqrt var) + (35 / 100 - ln (sqrt 2) - ln (sqrt var)))).
  - rewrite rsum_plus, rsum_const. ring.
  - intros s _. rewrite ln_laplace by exact S. unfold log_p_super_gaussian. unfold Rdiv at 2. rewrite Rabs_mult, (Rabs_right (/ sqrt var)) by (left; apply Rinv_0_lt_compat; exact S). field. lra.
Qed.
Lemma likelihood_none : forall n d X i b b0, (0 < n)%nat -> likelihood_i n d X i b b0 = None <-> forall s t, (s < n)%nat -> (t < n)%nat -> disturbance d X i b s = disturbance d X i b t.
Proof.
  intros n d X i b b0 Hn. unfold likelihood_i. assert (N : 0 < INR n) by (apply lt_0_INR; exact Hn).
  assert (V : variance_i n d X i b = 0 <-> forall s t, (s < n)%nat -> (t < n)%nat -> disturbance d X i b s = disturbance d X i b t).
  { unfold variance_i. set (e := disturbance d X i b). set (m := rsum n e / INR n). split.
    - intro H. assert (Z : rsum n (fun s => (e s - m) ^ 2) = 0).
      { apply (f_equal (fun z => z * INR n)) in H. unfold Rdiv in H. rewrite Rmult_assoc, Rinv_l in H by lra. lra. }
      assert (E : forall s, (s < n)%nat -> e s = m).
      { intros s Hs. pose proof (rsum_zero_all n (fun s => (e s - m) ^ 2) ltac:(intros; apply pow2_ge_0) Z s Hs) as Q. cbn beta in Q.
        destruct (Req_dec (e s - m) 0) as [Q'|Q']; [lra|]. exfalso. apply (pow_nonzero _ 2) in Q'. contradiction. }
      intros s t Hs Ht. rewrite (E s Hs), (E t Ht). reflexivity.
    - intro H. assert (M : m = e 0%nat). { unfold m. rewrite (rsum_ext n e (fun _ => e 0%nat)) by (intros; apply H; lia). rewrite rsum_const. field. lra. }
      rewrite rsum_0; [unfold Rdiv; ring|]. intros s Hs. rewrite M, (H s 0%nat Hs Hn). ring. }
  destruct (Req_EM_T (variance_i n d X i b) 0) as [Z|Z].
  - split; [intros _; apply V; exact Z|reflexivity].
  - split; [discriminate|]. intro H. exfalso. apply Z, V, H.
Qed.
(** Another origin and unit for every variable. *)
Lemma likelihood_units : forall n d X i b b0 (a t : nat -> R), (forall j, (j < d)%nat -> a j <> 0) -> (i < d)%nat ->
  likelihood_i n d (fun s j => a j * X s j + t j) i (fun j => a i / a j * b j) (a i * b0 + t i - rsum d (fun j => a i / a j * b j * t j)) =
  match likelihood_i n d X i b b0 with Some v => Some (v - INR n * ln (Rabs (a i))) | None => None end.
Proof.
  intros n d X i b b0 a t Ha Hi. pose proof (Ha i Hi) as Hai.
  set (k := t i - rsum d (fun j => a i / a j * b j * t j)).
  assert (E : forall s, disturbance d (fun s j => a j * X s j + t j) i (fun j => a i / a j * b j) s = a i * disturbance d X i b s + k).
  { intro s. unfold disturbance, k. rewrite Rmult_minus_distr_l, <- rsum_scal.
    rewrite (rsum_ext d (fun j => a i / a j * b j * (a j * X s j + t j)) (fun j => a i * (b j * X s j) + a i / a j * b j * t j)) by (intros j Hj; field; apply Ha; exact Hj).
    rewrite rsum_plus. ring. }
  assert (V : (0 < n)%nat -> variance_i n d (fun s j => a j * X s j + t j) i (fun j => a i / a j * b j) = a i ^ 2 * variance_i n d X i b).
  { intro Hn. assert (N : 0 < INR n) by (apply lt_0_INR; exact Hn). unfold variance_i.
    rewrite (rsum_ext n (disturbance d (fun s j => a j * X s j + t j) i (fun j => a i / a j * b j)) (fun s => a i * disturbance d X i b s + k)) by (intros; apply E).
    rewrite rsum_plus, rsum_scal, rsum_const. set (M := rsum n (disturbance d X i b)).
    rewrite (rsum_ext n _ (fun s => a i ^ 2 * (disturbance d X i b s - M / INR n) ^ 2)) by (intros; rewrite E; field; lra). rewrite rsum_scal. unfold Rdiv. ring. }
  destruct n as [|n].
  { unfold likelihood_i. assert (Z : forall X b, variance_i 0 d X i b = 0) by (intros; unfold variance_i; cbn [rsum]; unfold Rdiv; ring). rewrite !Z. destruct (Req_EM_T 0 0) as [_|C]; [reflexivity|contradiction]. }
  specialize (V ltac:(lia)). pose proof (variance_nonneg (S n) d X i b) as P. unfold likelihood_i. rewrite V. set (var := variance_i (S n) d X i b) in *.
  assert (A2 : 0 < a i ^ 2) by (replace (a i ^ 2) with (Rsqr (a i)) by (unfold Rsqr; ring); apply Rsqr_pos_lt; exact Hai).
  destruct (Req_EM_T var 0) as [Z|Z].
  { destruct (Req_EM_T (a i ^ 2 * var) 0) as [_|C]; [reflexivity|]. exfalso. apply C. rewrite Z. ring. }
  assert (Pv : 0 < var) by lra. destruct (Req_EM_T (a i ^ 2 * var) 0) as [C|_].
  { exfalso. apply Rmult_integral in C. destruct C; lra. }
  assert (Sq : sqrt (a i ^ 2 * var) = Rabs (a i) * sqrt var).
  { rewrite sqrt_mult by lra. f_equal. replace (a i ^ 2) with (Rsqr (a i)) by (unfold Rsqr; ring). apply sqrt_Rsqr_abs. }
  rewrite Sq. pose proof (sqrt_lt_R0 var Pv) as Ps. pose proof (Rabs_pos_lt (a i) Hai) as Pa. rewrite ln_mult by assumption. f_equal.
  rewrite (rsum_ext (S n) _ (fun s => log_p_super_gaussian ((disturbance d X i b s - b0) / sqrt var))).
  - ring.
  - intros s _. rewrite E. unfold log_p_super_gaussian. do 2 f_equal. unfold k.
    replace (a i * disturbance d X i b s + (t i - rsum d (fun j => a i / a j * b j * t j)) - (a i * b0 + t i - rsum d (fun j => a i / a j * b j * t j)))
      with (a i * (disturbance d X i b s - b0)) by ring.
    unfold Rdiv. rewrite !Rabs_mult, Rinv_mult, (Rabs_mult (/ Rabs (a i))), (Rabs_right (/ Rabs (a i))) by (left; apply Rinv_0_lt_compat; exact Pa).
    field. lra.
Qed.

(** ** Count variables *)
Lemma round_INR : forall k, round_half_even (INR k) = Z.of_nat k.
Proof.
  intro k. unfold round_half_even. assert (F : frac_part (INR k) = 0).
  { unfold frac_part. rewrite Int_part_INR, <- INR_IZR_INZ. ring. }
  rewrite F. destruct (Rlt_dec 0 (1 / 2)) as [_|N]; [apply Int_part_INR|lra].
Qed.
Lemma factorial_nat : forall k, factorial (INR k) = Z.of_nat (fact k).
Proof.
  intro k. unfold factorial. rewrite round_INR. cbv zeta. rewrite Nat2Z.id.
  assert (G : forall p, factorial_loop p (Z.of_nat p) = Z.of_nat (fact p)).
  { induction p as [|k' IH]; [reflexivity|]. cbn [factorial_loop]. destruct (Z.eqb_spec (Z.of_nat (S k')) 0); [lia|].
    destruct (Z.eqb_spec (Z.of_nat (S k')) 1) as [E|E].
    - cbn [orb]. assert (k' = 0)%nat by lia. subst k'. reflexivity.
    - cbn [orb]. destruct (Z.ltb_spec (Z.of_nat (S k')) 0); [lia|]. replace (Z.of_nat (S k') - 1)%Z with (Z.of_nat k') by lia. rewrite IH, <- Nat2Z.inj_mul. reflexivity. }
  apply G.
Qed.
Lemma exp_term_lt : forall lam k, 0 < lam -> lam ^ k / INR (fact k) < exp lam.
Proof.
  intros lam k H. unfold exp. destruct (exist_exp lam) as [l Hl]. cbn. unfold exp_in in Hl.
  assert (P : forall i, 0 < / INR (fact i) * lam ^ i) by (intro i; apply Rmult_lt_0_compat; [apply Rinv_0_lt_compat, INR_fact_lt_0|apply pow_lt; exact H]).
  pose proof (sum_incr (fun i => / INR (fact i) * lam ^ i) (S k) l Hl (fun i => Rlt_le _ _ (P i))) as Q. cbn [sum_f_R0] in Q.
  assert (N : forall m, / INR (fact m) * lam ^ m <= sum_f_R0 (fun i => / INR (fact i) * lam ^ i) m).
  { intro m. destruct m as [|m]; [cbn [sum_f_R0]; lra|]. cbn [sum_f_R0]. assert (0 <= sum_f_R0 (fun i => / INR (fact i) * lam ^ i) m) by (apply cond_pos_sum; intro; left; apply P). lra. }
  specialize (N k). pose proof (P (S k)). unfold Rdiv. rewrite Rmult_comm. lra.
Qed.
Lemma pmf_range : forall lam k, 0 < lam -> 0 < poisson_pmf lam k < 1.
Proof.
  intros lam k H. unfold poisson_pmf. pose proof (INR_fact_lt_0 k) as F. pose proof (exp_pos (- lam)) as E. pose proof (pow_lt lam k H) as W. split.
  - apply Rdiv_lt_0_compat; [apply Rmult_lt_0_compat; assumption|exact F].
  - pose proof (exp_term_lt lam k H) as Q. replace (exp (- lam) * lam ^ k / INR (fact k)) with (exp (- lam) * (lam ^ k / INR (fact k))) by (field; lra).
    apply Rlt_le_trans with (exp (- lam) * exp lam); [apply Rmult_lt_compat_l; assumption|]. rewrite <- exp_plus. replace (- lam + lam) with 0 by ring. rewrite exp_0. lra.
Qed.
Lemma ln_pmf : forall u k, ln (poisson_pmf (exp u) k) = - exp u + INR k * u - ln (INR (fact k)).
Proof.
  intros u k. unfold poisson_pmf, Rdiv. pose proof (INR_fact_lt_0 k) as F. pose proof (exp_pos u) as E.
  rewrite ln_mult, ln_mult, ln_exp, ln_Rinv; try assumption; [|apply exp_pos|apply pow_lt; exact E|apply Rmult_lt_0_compat; [apply exp_pos|apply pow_lt; exact E]|apply Rinv_0_lt_compat; exact F].
  assert (L : ln (exp u ^ k) = INR k * u). { rewrite <- (ln_exp (INR k * u)). f_equal. clear. induction k as [|k IH]; [cbn; rewrite Rmult_0_l, exp_0; reflexivity|]. rewrite S_INR, Rmult_plus_distr_r, exp_plus, <- IH, Rmult_1_l. cbn [pow]. ring. }
  rewrite L. ring.
Qed.
Lemma poisson_last : forall coef n X qs j i, poisson_term coef n X (qs ++ [j]) i = poisson_round coef n X i j.
Proof. intros. unfold poisson_term. rewrite fold_left_app. reflexivity. Qed.
Lemma poisson_round_loglik : forall coef n X i j y, (forall s, (s < n)%nat -> X s i = INR (y s)) ->
  poisson_round coef n X i j = - rsum n (fun s => ln (poisson_pmf (exp (coef j i * X s j)) (y s))).
Proof.
  intros coef n X i j y H. unfold poisson_round. rewrite <- !rsum_opp, <- !rsum_plus. apply rsum_ext. intros s Hs.
  rewrite ln_pmf, (H s Hs), factorial_nat, <- INR_IZR_INZ. replace (coef j i * X s j) with (X s j * coef j i) by ring. ring.
Qed.
Lemma loglik_neg : forall n (f : nat -> R) y, (0 < n)%nat -> rsum n (fun s => ln (poisson_pmf (exp (f s)) (y s))) < 0.
Proof.
  intros n f y Hn. destruct n as [|n]; [lia|]. clear Hn. assert (P : forall s, ln (poisson_pmf (exp (f s)) (y s)) < 0).
  { intro s. destruct (pmf_range (exp (f s)) (y s) (exp_pos _)) as [P1 P2]. rewrite <- ln_1. apply ln_increasing; assumption. }
  induction n as [|n IH]; cbn [rsum]; [cbn; specialize (P 0%nat); lra|]. specialize (P (S n)). cbn [rsum] in IH. lra.
Qed.
