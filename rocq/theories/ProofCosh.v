(** * cosh of two numbers with given sum of squares *)
From Coq Require Import Reals Lra Lia Arith.
From Verif Require Import LibR ProofKernel.
Open Scope R_scope.

Definition cterm (x : R) (k : nat) : R := / INR (fact k) * x ^ k + / INR (fact k) * (- x) ^ k.
Lemma cosh_series : forall x, Un_cv (fun N => sum_f_R0 (cterm x) N) (2 * cosh x).
Proof.
  intro x. replace (2 * cosh x) with (exp x + exp (- x)) by (unfold cosh; field).
  apply (Un_cv_ext (fun N => sum_f_R0 (fun k => / INR (fact k) * x ^ k) N + sum_f_R0 (fun k => / INR (fact k) * (- x) ^ k) N)).
  - intro N. rewrite <- sum_plus. reflexivity.
  - apply CV_plus; apply exp_series.
Qed.
Lemma cterm_even : forall x j, cterm x (2 * j) = 2 * / INR (fact (2 * j)) * (x * x) ^ j.
Proof.
  intros x j. unfold cterm. rewrite !pow_mult. replace ((- x) ^ 2) with (x * x) by ring. replace (x ^ 2) with (x * x) by ring. ring.
Qed.
Lemma cterm_odd : forall x j, cterm x (S (2 * j)) = 0.
Proof.
  intros x j. unfold cterm. cbn [pow]. rewrite !pow_mult. replace ((- x) ^ 2) with (x ^ 2) by ring. ring.
Qed.
Lemma pow_sum_le : forall A B k, 0 <= A -> 0 <= B -> A ^ S k + B ^ S k <= (A + B) ^ S k.
Proof.
  intros A B k PA PB. induction k as [|k IH]; [cbn; lra|]. change ((A + B) ^ S (S k)) with ((A + B) * (A + B) ^ S k). change (A ^ S (S k)) with (A * A ^ S k). change (B ^ S (S k)) with (B * B ^ S k).
  pose proof (pow_le A (S k) PA) as QA. pose proof (pow_le B (S k) PB) as QB. set (a := A ^ S k) in *. set (b := B ^ S k) in *.
  apply Rle_trans with ((A + B) * (a + b)); [|apply Rmult_le_compat_l; lra]. pose proof (Rmult_le_pos _ _ PA QB). pose proof (Rmult_le_pos _ _ PB QA). lra.
Qed.
Lemma pow_sum_ge : forall A B M k, 0 <= A -> 0 <= B -> A + B = 2 * M -> 2 * M ^ k <= A ^ k + B ^ k.
Proof.
  intros A B M k PA PB E. assert (PM : 0 <= M) by lra. induction k as [|k IH]; [cbn; lra|]. cbn [pow].
  assert (H : M * (A ^ k + B ^ k) <= A * A ^ k + B * B ^ k).
  { assert (C : 0 <= (A - B) * (A ^ k - B ^ k)).
    { destruct (Rle_dec A B) as [L|L].
      - pose proof (pow_incr A B k (conj PA L)). replace ((A - B) * (A ^ k - B ^ k)) with ((B - A) * (B ^ k - A ^ k)) by ring. apply Rmult_le_pos; lra.
      - assert (L' : B <= A) by lra. pose proof (pow_incr B A k (conj PB L')). apply Rmult_le_pos; lra. }
    replace M with ((A + B) / 2) by lra. lra. }
  apply Rle_trans with (M * (A ^ k + B ^ k)); [|exact H]. replace (2 * (M * M ^ k)) with (M * (2 * M ^ k)) by ring. apply Rmult_le_compat_l; assumption.
Qed.
Lemma even_or_odd : forall k, exists j, k = (2 * j)%nat \/ k = S (2 * j).
Proof. intro k. destruct (Nat.Even_or_Odd k) as [[j E]|[j E]]; exists j; lia. Qed.
Lemma fact_inv_pos : forall k, 0 < 2 * / INR (fact k).
Proof. intro k. pose proof (Rinv_0_lt_compat _ (INR_fact_lt_0 k)). lra. Qed.

Lemma cosh_sum_le : forall m d r, m * m + d * d = r * r -> cosh m + cosh d <= cosh r + 1.
Proof.
  intros m d r E. assert (H : 2 * cosh m + 2 * cosh d <= 2 * cosh r + 2 * cosh 0).
  { apply Rle_cv_lim with (Un := fun N => sum_f_R0 (cterm m) N + sum_f_R0 (cterm d) N) (Vn := fun N => sum_f_R0 (cterm r) N + sum_f_R0 (cterm 0) N).
    - intro N. rewrite <- !sum_plus. apply sum_Rle. intros k _. destruct (even_or_odd k) as [j [-> | ->]]; [|rewrite !cterm_odd; lra].
      rewrite !cterm_even. rewrite <- !Rmult_plus_distr_l. apply Rmult_le_compat_l; [apply Rlt_le, fact_inv_pos|]. destruct j as [|j]; [cbn; lra|].
      rewrite <- E, Rmult_0_l, (pow_i (S j)) by lia. rewrite Rplus_0_r. apply pow_sum_le; apply Rle_0_sqr.
    - apply CV_plus; apply cosh_series.
    - apply CV_plus; apply cosh_series. }
  replace (cosh 0) with 1 in H by (unfold cosh; rewrite Ropp_0, exp_0; field). lra.
Qed.
Lemma cosh_sum_ge : forall m d r, m * m + d * d = 2 * (r * r) -> 2 * cosh r <= cosh m + cosh d.
Proof.
  intros m d r E. assert (H : 2 * cosh r + 2 * cosh r <= 2 * cosh m + 2 * cosh d).
  { apply Rle_cv_lim with (Un := fun N => sum_f_R0 (cterm r) N + sum_f_R0 (cterm r) N) (Vn := fun N => sum_f_R0 (cterm m) N + sum_f_R0 (cterm d) N).
    - intro N. rewrite <- !sum_plus. apply sum_Rle. intros k _. destruct (even_or_odd k) as [j [-> | ->]]; [|rewrite !cterm_odd; lra].
      rewrite !cterm_even. rewrite <- !Rmult_plus_distr_l. apply Rmult_le_compat_l; [apply Rlt_le, fact_inv_pos|].
      replace ((r * r) ^ j + (r * r) ^ j) with (2 * (r * r) ^ j) by ring. apply pow_sum_ge; [apply Rle_0_sqr|apply Rle_0_sqr|exact E].
    - apply CV_plus; apply cosh_series.
    - apply CV_plus; apply cosh_series. }
  lra.
Qed.
Lemma cosh_prod : forall s t, cosh s * cosh t = (cosh (s + t) + cosh (s - t)) / 2.
Proof.
  intros s t. unfold cosh. replace (- (s + t)) with (- s + - t) by ring. replace (- (s - t)) with (- s + t) by ring. unfold Rminus. rewrite !exp_plus. field.
Qed.
(** Two numbers whose squares add up to 2. *)
Lemma cosh_prod_bounds : forall s t, s * s + t * t = 2 -> cosh (sqrt 2) <= cosh s * cosh t <= cosh 1 * cosh 1.
Proof.
  intros s t E. rewrite !cosh_prod. replace (1 - 1) with 0 by ring. replace (cosh 0) with 1 by (unfold cosh; rewrite Ropp_0, exp_0; field). split.
  - pose proof (cosh_sum_ge (s + t) (s - t) (sqrt 2)). rewrite sqrt_sqrt in H by lra. assert (2 * cosh (sqrt 2) <= cosh (s + t) + cosh (s - t)) by (apply H; lra). lra.
  - pose proof (cosh_sum_le (s + t) (s - t) (1 + 1)). assert (cosh (s + t) + cosh (s - t) <= cosh (1 + 1) + 1) by (apply H; lra). lra.
Qed.
