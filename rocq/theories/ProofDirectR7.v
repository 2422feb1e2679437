(** * DirectLiNGAM on data: two variables, and a worked data set *)
From Coq Require Import Reals Lra Lia Arith Bool List Permutation FunctionalExtensionality.
From Verif Require Import Prelude LibR SpecDirectR ModelDirectR ProofDirectR ProofDirectR2 ProofDirectR5 ProofDirectR6.
From Verif Require ModelDirect.
Import ListNotations.
Open Scope R_scope.

Definition oopp (a : option R) : option R := option_map Ropp a.
Lemma diff_antisym : forall n xi xj r q, diff_mutual_info n xj xi q r = oopp (diff_mutual_info n xi xj r q).
Proof.
  intros. unfold diff_mutual_info. destruct (entropy n xi), (entropy n xj), (entropy n (unit_std n r)), (entropy n (unit_std n q)); cbn; try reflexivity.
  f_equal. ring.
Qed.
(** the quantity of the code for columns i and j *)
Definition dmi (n : nat) (x y : nat -> R) : option R :=
  let zx := standardize n (Some x) in let zy := standardize n (Some y) in
  diff_mutual_info n zx zy (residual n zx zy) (residual n zy zx).
Lemma dmi_antisym : forall n x y, dmi n y x = oopp (dmi n x y).
Proof. intros. apply diff_antisym. Qed.
Lemma dmi_none : forall n x y, (0 < n)%nat -> (dmi n x y = None <-> linearly_related n x y).
Proof.
  intros n x y Hn. pose proof (pair_term_none n Hn (fun j => Some (if (j =? 0)%nat then x else y)) 0 1) as H. cbn [Nat.eqb] in H.
  unfold pair_term in H. fold (dmi n x y) in H. cbn [Nat.eqb] in H. change (nan_pair n (Some x) (Some y)) with (linearly_related n x y) in H.
  rewrite <- H. unfold dmi. destruct (diff_mutual_info n _ _ _ _); cbn; split; congruence.
Qed.
Lemma two_scores : forall n (X : nat -> nat -> R) D, dmi n (X 0%nat) (X 1%nat) = Some D ->
  pwling_score n (fun j => Some (X j)) [0%nat; 1%nat] [0%nat; 1%nat] [] 0 = Ok (Some (-1 * (0 + Rmin 0 D ^ 2))) /\
  pwling_score n (fun j => Some (X j)) [0%nat; 1%nat] [0%nat; 1%nat] [] 1 = Ok (Some (-1 * (0 + Rmin 0 (- D) ^ 2))).
Proof.
  intros n X D H. rewrite !score_eq. cbn [fold_left Nat.eqb]. unfold pair_term.
  change (diff_mutual_info n _ _ (residual n (standardize n (Some (X 0%nat))) _) _) with (dmi n (X 0%nat) (X 1%nat)).
  change (diff_mutual_info n _ _ (residual n (standardize n (Some (X 1%nat))) _) _) with (dmi n (X 1%nat) (X 0%nat)).
  rewrite (dmi_antisym n (X 0%nat) (X 1%nat)), H. split; reflexivity.
Qed.
Lemma two_order : forall logsv n ok (X : nat -> nat -> R) D, (0 < n)%nat -> dmi n (X 0%nat) (X 1%nat) = Some D ->
  fit_order logsv ModelDirect.Pwling n 2 ok ModelDirect.NoPK X = Ok (if Rle_dec 0 D then [0%nat; 1%nat] else [1%nat; 0%nat]).
Proof.
  intros logsv n ok X D Hn H. unfold fit_order. replace (n =? 0)%nat with false by (symmetry; apply Nat.eqb_neq; lia). cbn [orb Nat.eqb].
  cbn [seq]. cbn [loop]. unfold search at 1. cbn [ModelDirect.search_candidate traverse]. destruct (two_scores n X D H) as [-> ->]. cbn [bind argmax argbest].
  unfold Rltb. destruct (Rle_dec 0 D) as [L|L].
  - rewrite (Rmin_left 0 D) by lra. destruct (Rlt_dec _ _) as [B|B].
    + exfalso. assert (0 <= Rmin 0 (- D) ^ 2) by apply pow2_ge_0. lra.
    + reflexivity.
  - rewrite (Rmin_right 0 D), (Rmin_left 0 (- D)) by lra. destruct (Rlt_dec _ _) as [B|B]; [reflexivity|].
    exfalso. apply B. assert (0 < D ^ 2) by (apply pow2_gt_0 || nra). lra.
Qed.

(** ** Bounds for e and for sqrt 2 *)
Lemma exp_pow : forall x k, exp (INR k * x) = exp x ^ k.
Proof. intros x k. induction k as [|k IH]; [cbn; rewrite Rmult_0_l; apply exp_0|]. rewrite S_INR. replace ((INR k + 1) * x) with (x + INR k * x) by ring. rewrite exp_plus, IH. reflexivity. Qed.
Lemma exp_ge_line : forall x, 1 + x <= exp x.
Proof. intro x. destruct (Req_dec x 0) as [->|D]; [rewrite exp_0; lra|]. left. apply exp_ineq1. exact D. Qed.
Lemma exp_sq : forall x, exp x = exp (x / 2) * exp (x / 2).
Proof. intro x. rewrite <- exp_plus. f_equal. lra. Qed.
Lemma exp_upper : forall x, x < 1 -> exp x <= / (1 - x).
Proof.
  intros x H. pose proof (exp_ge_line (- x)) as L. pose proof (exp_pos x) as P. rewrite exp_Ropp in L.
  apply (Rmult_le_reg_r (1 - x)); [lra|]. rewrite Rinv_l by lra.
  apply (Rmult_le_compat_l (exp x)) in L; [|lra]. rewrite Rinv_r in L by lra. lra.
Qed.
Lemma sq_between : forall l u y, 0 <= l -> l <= y <= u -> l * l <= y * y <= u * u.
Proof. intros. nra. Qed.
Lemma e_bounds : 2707 / 1000 <= exp 1 <= 273 / 100.
Proof.
  assert (B7 : 129 / 128 <= exp (1 / 128) <= 128 / 127).
  { split; [pose proof (exp_ge_line (1 / 128)); lra|]. eapply Rle_trans; [apply exp_upper; lra|]. right. field. }
  assert (S : forall k l u l' u', 0 <= l -> l <= exp (k / 2) <= u -> l' <= l * l -> u * u <= u' -> l' <= exp k <= u').
  { intros k l u l' u' Hl B H1 H2. rewrite (exp_sq k). pose proof (sq_between l u _ Hl B). lra. }
  assert (B6 : 1015686 / 1000000 <= exp (1 / 64) <= 1015811 / 1000000).
  { apply (S (1 / 64) (129 / 128) (128 / 127)); try lra. replace (1 / 64 / 2) with (1 / 128) by lra. exact B7. }
  assert (B5 : 1031618 / 1000000 <= exp (1 / 32) <= 1031873 / 1000000).
  { eapply S; [|replace (1 / 32 / 2) with (1 / 64) by lra; exact B6| |]; lra. }
  assert (B4 : 1064235 / 1000000 <= exp (1 / 16) <= 1064763 / 1000000).
  { eapply S; [|replace (1 / 16 / 2) with (1 / 32) by lra; exact B5| |]; lra. }
  assert (B3 : 1132596 / 1000000 <= exp (1 / 8) <= 1133721 / 1000000).
  { eapply S; [|replace (1 / 8 / 2) with (1 / 16) by lra; exact B4| |]; lra. }
  assert (B2 : 1282773 / 1000000 <= exp (1 / 4) <= 1285324 / 1000000).
  { eapply S; [|replace (1 / 4 / 2) with (1 / 8) by lra; exact B3| |]; lra. }
  assert (B1 : 1645506 / 1000000 <= exp (1 / 2) <= 1652058 / 1000000).
  { eapply S; [|replace (1 / 2 / 2) with (1 / 4) by lra; exact B2| |]; lra. }
  eapply S; [|exact B1| |]; lra.
Qed.
Definition q2 : R := sqrt 2.
Lemma q2_sq : q2 * q2 = 2.
Proof. apply sqrt_sqrt. lra. Qed.
Lemma q2_pos : 1414 / 1000 < q2 < 1415 / 1000.
Proof.
  pose proof q2_sq as S. assert (0 <= q2) by apply sqrt_pos. split.
  - apply Rnot_le_lt. intro L. assert (q2 * q2 <= (1414 / 1000) * (1414 / 1000)) by (apply Rmult_le_compat; lra). lra.
  - apply Rnot_le_lt. intro L. assert ((1415 / 1000) * (1415 / 1000) <= q2 * q2) by (apply Rmult_le_compat; lra). lra.
Qed.
Lemma cosh_1 : 1535 / 1000 <= cosh 1 <= 2.
Proof.
  pose proof e_bounds as [L U]. unfold cosh. rewrite exp_Ropp. assert (H : / (273 / 100) <= / exp 1 <= / (27 / 10)).
  { split; apply Rinv_le_contravar; lra. }
  assert (/ (273 / 100) = 100 / 273) by field. assert (/ (27 / 10) = 10 / 27) by field. 
  assert (D : 100 / 273 >= 366 / 1000) by lra. lra.
Qed.
Lemma cosh_ge : forall x, 1 <= cosh x.
Proof.
  intro x. unfold cosh. rewrite exp_Ropp. pose proof (exp_pos x) as P.
  assert (0 <= (exp x - 1) * (exp x - 1) * / exp x) by (apply Rmult_le_pos; [apply Rle_0_sqr|left; apply Rinv_0_lt_compat; exact P]).
  assert ((exp x - 1) * (exp x - 1) * / exp x = exp x - 2 + / exp x) by (field; lra). lra.
Qed.
Lemma cosh_q2 : 2 <= cosh q2 < 235 / 100.
Proof.
  pose proof q2_pos as [L U]. pose proof e_bounds as [EL EU].
  assert (A : exp q2 <= 434 / 100).
  { apply Rle_trans with (exp (1 + 415 / 1000)); [left; apply exp_increasing; lra|]. rewrite exp_plus.
    assert (B : 0 <= exp (415 / 1000) <= 1588 / 1000).
    { split; [left; apply exp_pos|]. rewrite exp_sq. rewrite (exp_sq (415 / 1000 / 2)).
      assert (C : 0 <= exp (415 / 1000 / 2 / 2) <= 11158 / 10000).
      { split; [left; apply exp_pos|]. eapply Rle_trans; [apply exp_upper; lra|]. apply (Rmult_le_reg_r (1 - 415 / 1000 / 2 / 2)); [lra|]. rewrite Rinv_l by lra. lra. }
      set (c := exp (415 / 1000 / 2 / 2)) in *. pose proof (sq_between 0 (11158 / 10000) c ltac:(lra) C) as Q.
      pose proof (sq_between 0 (1246 / 1000) (c * c) ltac:(lra) ltac:(lra)). lra. }
    apply Rle_trans with (273 / 100 * (1588 / 1000)); [apply Rmult_le_compat; try lra|lra]. }
  assert (B : 385 / 100 <= exp q2).
  { apply Rle_trans with (exp (1 + 414 / 1000)); [|left; apply exp_increasing; lra]. rewrite exp_plus.
    assert (1 + 414 / 1000 + 0 <= exp (414 / 1000)) by (pose proof (exp_ge_line (414 / 1000)); lra).
    rewrite (exp_sq (414 / 1000)). pose proof (exp_ge_line (414 / 1000 / 2)) as C.
    pose proof (sq_between (1207 / 1000) (exp (414 / 1000 / 2)) (exp (414 / 1000 / 2)) ltac:(lra) ltac:(lra)) as Q.
    apply Rle_trans with (27 / 10 * (1456 / 1000)); [lra|]. apply Rmult_le_compat; lra. }
  unfold cosh. rewrite exp_Ropp. assert (H : / (434 / 100) <= / exp q2 <= / (385 / 100)) by (split; apply Rinv_le_contravar; lra).
  assert (/ (434 / 100) = 100 / 434) by field. assert (/ (385 / 100) = 100 / 385) by field. lra.
Qed.

(** ** x0 = (1, 1, -1, -1) and x1 = x0 + (1, -1, 1, -1) *)
Definition ex_x0 (s : nat) : R := match s with O | 1%nat => 1 | _ => -1 end.
Definition ex_x1 (s : nat) : R := match s with O => 2 | 1%nat | 2%nat => 0 | _ => -2 end.
Definition ex_data (j : nat) : nat -> R := match j with O => ex_x0 | _ => ex_x1 end.
Lemma mean4 : forall f, mean 4 f = (f 0%nat + f 1%nat + f 2%nat + f 3%nat) / 4.
Proof. intro f. unfold mean. cbn [rsum]. replace (INR 4) with 4 by (cbn; ring). field. Qed.
Lemma ent4 : forall u, entropy_of 4 u = (1 + ln (2 * PI)) / 2
  - k1 * ((ln (cosh (u 0%nat)) + ln (cosh (u 1%nat)) + ln (cosh (u 2%nat)) + ln (cosh (u 3%nat))) / 4 - gamma) ^ 2
  - k2 * ((u 0%nat * exp (- u 0%nat ^ 2 / 2) + u 1%nat * exp (- u 1%nat ^ 2 / 2) + u 2%nat * exp (- u 2%nat ^ 2 / 2) + u 3%nat * exp (- u 3%nat ^ 2 / 2)) / 4) ^ 2.
Proof. intro u. unfold entropy_of. rewrite !mean4. reflexivity. Qed.
Lemma cosh_neg : forall x, cosh (- x) = cosh x.
Proof. intro x. unfold cosh. rewrite Ropp_involutive. f_equal. ring. Qed.
(** entropy of a sample symmetric about 0: the second term vanishes *)
Lemma ent4_one : forall u, (forall s, (s < 4)%nat -> u s = 1 \/ u s = -1) -> u 0%nat + u 1%nat + u 2%nat + u 3%nat = 0 ->
  entropy_of 4 u = (1 + ln (2 * PI)) / 2 - k1 * (ln (cosh 1) - gamma) ^ 2.
Proof.
  intros u H Z. rewrite ent4. assert (C : cosh (-1) = cosh 1) by (replace (-1) with (- (1)) by lra; apply cosh_neg).
  assert (L : forall s, (s < 4)%nat -> ln (cosh (u s)) = ln (cosh 1)) by (intros s Hs; destruct (H s Hs) as [-> | ->]; [reflexivity|]; rewrite C; reflexivity).
  assert (E : forall s, (s < 4)%nat -> u s * exp (- u s ^ 2 / 2) = u s * exp (- 1 / 2)).
  { intros s Hs. do 2 f_equal. destruct (H s Hs) as [-> | ->]; field. }
  rewrite !L, !E by lia. replace (u 0%nat * exp (-1 / 2) + u 1%nat * exp (-1 / 2) + u 2%nat * exp (-1 / 2) + u 3%nat * exp (-1 / 2))
    with ((u 0%nat + u 1%nat + u 2%nat + u 3%nat) * exp (-1 / 2)) by ring. rewrite Z. field.
Qed.
Lemma ent4_q2 : forall u a b c d, u a = q2 -> u b = - q2 -> u c = 0 -> u d = 0 ->
  ln (cosh (u 0%nat)) + ln (cosh (u 1%nat)) + ln (cosh (u 2%nat)) + ln (cosh (u 3%nat)) = ln (cosh (u a)) + ln (cosh (u b)) + ln (cosh (u c)) + ln (cosh (u d)) ->
  u 0%nat * exp (- u 0%nat ^ 2 / 2) + u 1%nat * exp (- u 1%nat ^ 2 / 2) + u 2%nat * exp (- u 2%nat ^ 2 / 2) + u 3%nat * exp (- u 3%nat ^ 2 / 2)
  = u a * exp (- u a ^ 2 / 2) + u b * exp (- u b ^ 2 / 2) + u c * exp (- u c ^ 2 / 2) + u d * exp (- u d ^ 2 / 2) ->
  entropy_of 4 u = (1 + ln (2 * PI)) / 2 - k1 * (ln (cosh q2) / 2 - gamma) ^ 2.
Proof.
  intros u a b c d A B C D L E. rewrite ent4, L, E, A, B, C, D, cosh_neg, cosh_0, ln_1.
  replace ((- q2) ^ 2) with (q2 ^ 2) by ring. field.
Qed.
Lemma ex_entropies : (ln (cosh q2) / 2 - gamma) ^ 2 < (ln (cosh 1) - gamma) ^ 2.
Proof.
  pose proof cosh_1 as [C1 C2]. pose proof cosh_q2 as [D1 D2]. pose proof e_bounds as [E1 E2].
  assert (A : ln (cosh q2) < 2 * ln (cosh 1)).
  { replace (2 * ln (cosh 1)) with (ln (cosh 1 * cosh 1)) by (rewrite ln_mult; lra). apply ln_increasing; [lra|].
    assert (1535 / 1000 * (1535 / 1000) <= cosh 1 * cosh 1) by (apply Rmult_le_compat; lra). lra. }
  assert (B : 3 < 4 * (ln (cosh 1) + ln (cosh q2) / 2)).
  { replace (4 * (ln (cosh 1) + ln (cosh q2) / 2)) with (ln (((cosh 1 * cosh 1) * (cosh 1 * cosh 1)) * (cosh q2 * cosh q2))).
    - rewrite <- (ln_exp 3) at 1. apply ln_increasing; [apply exp_pos|].
      replace 3 with (1 + 1 + 1) by lra. rewrite !exp_plus.
      assert (F1 : 2356 / 1000 <= cosh 1 * cosh 1) by (apply Rle_trans with (1535 / 1000 * (1535 / 1000)); [lra|apply Rmult_le_compat; lra]).
      assert (F2 : 555 / 100 <= (cosh 1 * cosh 1) * (cosh 1 * cosh 1)) by (apply Rle_trans with (2356 / 1000 * (2356 / 1000)); [lra|apply Rmult_le_compat; lra]).
      assert (F3 : 4 <= cosh q2 * cosh q2) by (apply Rle_trans with (2 * 2); [lra|apply Rmult_le_compat; lra]).
      assert (F4 : 555 / 100 * 4 <= (cosh 1 * cosh 1) * (cosh 1 * cosh 1) * (cosh q2 * cosh q2)) by (apply Rmult_le_compat; lra).
      assert (G1 : exp 1 * exp 1 <= 746 / 100) by (apply Rle_trans with (273 / 100 * (273 / 100)); [apply Rmult_le_compat; lra|lra]).
      assert (G2 : exp 1 * exp 1 * exp 1 <= 746 / 100 * (273 / 100)) by (apply Rmult_le_compat; try lra; apply Rmult_le_pos; lra). lra.
    - assert (P : 0 < cosh 1) by lra. assert (Q : 0 < cosh q2) by lra. assert (PP : 0 < cosh 1 * cosh 1) by (apply Rmult_lt_0_compat; lra).
      rewrite (ln_mult (cosh 1 * cosh 1 * (cosh 1 * cosh 1))) by (apply Rmult_lt_0_compat; assumption).
      rewrite (ln_mult (cosh 1 * cosh 1)) by assumption. rewrite !ln_mult by assumption. lra. }
  unfold gamma in *. set (x := ln (cosh 1)) in *. set (y := ln (cosh q2)) in *.
  assert (0 < (x - y / 2) * (x + y / 2 - 2 * (37457 / 100000))) by (apply Rmult_lt_0_compat; lra).
  assert ((x - 37457 / 100000) ^ 2 - (y / 2 - 37457 / 100000) ^ 2 = (x - y / 2) * (x + y / 2 - 2 * (37457 / 100000))) by ring. lra.
Qed.
Lemma var4 : forall x, mean 4 x = 0 -> var 4 x = (x 0%nat ^ 2 + x 1%nat ^ 2 + x 2%nat ^ 2 + x 3%nat ^ 2) / 4.
Proof. intros x M. unfold var. rewrite M, mean4. field. Qed.
Lemma cov4 : forall x y, mean 4 x = 0 -> mean 4 y = 0 -> cov 4 x y = (x 0%nat * y 0%nat + x 1%nat * y 1%nat + x 2%nat * y 2%nat + x 3%nat * y 3%nat) / 4.
Proof. intros x y M N. unfold cov. rewrite M, N, mean4. field. Qed.
Lemma std4 : forall x v, mean 4 x = 0 -> 0 <= v -> (x 0%nat ^ 2 + x 1%nat ^ 2 + x 2%nat ^ 2 + x 3%nat ^ 2) / 4 = v * v -> std 4 x = v.
Proof. intros x v M P E. unfold std. rewrite var4, E by exact M. apply sqrt_square. exact P. Qed.
Lemma ex_dmi : exists D, 0 < D /\ dmi 4 ex_x0 ex_x1 = Some D.
Proof.
  pose proof q2_sq as Q. pose proof q2_pos as QP. assert (Qn : q2 <> 0) by lra.
  assert (M0 : mean 4 ex_x0 = 0) by (rewrite mean4; cbn; field). assert (M1 : mean 4 ex_x1 = 0) by (rewrite mean4; cbn; field).
  assert (S0 : std 4 ex_x0 = 1) by (apply std4; [exact M0|lra|cbn; field]).
  assert (S1 : std 4 ex_x1 = q2) by (apply std4; [exact M1|lra|cbn; lra]).
  set (z0 := fun s => (ex_x0 s - mean 4 ex_x0) / std 4 ex_x0). set (z1 := fun s => (ex_x1 s - mean 4 ex_x1) / std 4 ex_x1).
  assert (Z0 : forall s, z0 s = ex_x0 s) by (intro s; unfold z0; rewrite M0, S0; field).
  assert (Z1 : forall s, z1 s = ex_x1 s * q2 / 2).
  { intro s. unfold z1. rewrite M1, S1. apply (Rmult_eq_reg_r q2); [|exact Qn]. replace (ex_x1 s * q2 / 2 * q2) with (ex_x1 s * (q2 * q2) / 2) by field. rewrite Q. field. exact Qn. }
  assert (N0 : mean 4 z0 = 0) by (rewrite mean4, !Z0; cbn; field). assert (N1 : mean 4 z1 = 0) by (rewrite mean4, !Z1; cbn; field).
  assert (V0 : var 4 z0 = 1) by (rewrite var4, !Z0 by exact N0; cbn; field).
  assert (V1 : var 4 z1 = 1) by (rewrite var4, !Z1 by exact N1; cbn; replace 1 with (q2 * q2 / 2) at 10 by (rewrite Q; field); nra).
  assert (C01 : cov 4 z0 z1 = q2 / 2) by (rewrite cov4, !Z0, !Z1 by assumption; cbn; field).
  assert (C10 : cov 4 z1 z0 = q2 / 2) by (rewrite cov4, !Z0, !Z1 by assumption; cbn; field).
  set (r := fun s => z0 s - cov 4 z0 z1 / var 4 z1 * z1 s). set (q := fun s => z1 s - cov 4 z1 z0 / var 4 z0 * z0 s).
  assert (Rv : forall s, r s = ex_x0 s - ex_x1 s / 2).
  { intro s. unfold r. rewrite C01, V1, Z0, Z1. replace (q2 / 2 / 1 * (ex_x1 s * q2 / 2)) with (ex_x1 s * (q2 * q2) / 4) by field. rewrite Q. field. }
  assert (Qv : forall s, q s = q2 / 2 * (ex_x1 s - ex_x0 s)) by (intro s; unfold q; rewrite C10, V0, Z0, Z1; field).
  assert (MR : mean 4 r = 0) by (rewrite mean4, !Rv; cbn; field). assert (MQ : mean 4 q = 0) by (rewrite mean4, !Qv; cbn; field).
  assert (SR : std 4 r = q2 / 2) by (apply std4; [exact MR|lra|]; rewrite !Rv; cbn; nra).
  assert (SQ : std 4 q = q2 / 2) by (apply std4; [exact MQ|lra|]; rewrite !Qv; cbn; nra).
  unfold dmi. cbn [standardize]. destruct (Req_EM_T (std 4 ex_x0) 0) as [B|_]; [lra|]. destruct (Req_EM_T (std 4 ex_x1) 0) as [B|_]; [lra|].
  fold z0 z1. cbn [residual]. destruct (Req_EM_T (var 4 z1) 0) as [B|_]; [lra|]. destruct (Req_EM_T (var 4 z0) 0) as [B|_]; [lra|].
  fold r q. unfold diff_mutual_info. cbn [unit_std]. destruct (Req_EM_T (std 4 r) 0) as [B|_]; [lra|]. destruct (Req_EM_T (std 4 q) 0) as [B|_]; [lra|].
  cbn [entropy option_map oadd osub].
  assert (T : 1 / (q2 / 2) = q2) by (apply (Rmult_eq_reg_r (q2 / 2)); [|lra]; field_simplify; lra).
  assert (I2 : q2 * (q2 / 2) = 1) by lra.
  assert (E0 : entropy_of 4 z0 = (1 + ln (2 * PI)) / 2 - k1 * (ln (cosh 1) - gamma) ^ 2).
  { apply ent4_one; [|rewrite !Z0; cbn; ring]. intros s Hs. rewrite Z0. destruct s as [|[|[|[|s] ] ] ]; cbn; [left|left|right|right|lia]; reflexivity. }
  assert (E1 : entropy_of 4 z1 = (1 + ln (2 * PI)) / 2 - k1 * (ln (cosh q2) / 2 - gamma) ^ 2).
  { apply (ent4_q2 z1 0 3 1 2); try (rewrite Z1; cbn; field); ring. }
  assert (ER : entropy_of 4 (fun s => r s / std 4 r) = (1 + ln (2 * PI)) / 2 - k1 * (ln (cosh q2) / 2 - gamma) ^ 2).
  { rewrite SR. apply (ent4_q2 (fun s => r s / (q2 / 2)) 1 2 0 3); cbn beta; try (rewrite Rv; cbn; rewrite <- T at 1; field; lra); try ring. }
  assert (EQ : entropy_of 4 (fun s => q s / std 4 q) = (1 + ln (2 * PI)) / 2 - k1 * (ln (cosh 1) - gamma) ^ 2).
  { rewrite SQ. apply ent4_one; [|rewrite !Qv; cbn; field; lra]. intros s Hs. rewrite Qv. destruct s as [|[|[|[|s] ] ] ]; cbn; [left|right|left|right|lia]; field; lra. }
  eexists. split; [|reflexivity]. rewrite E0, E1, ER, EQ. pose proof ex_entropies as H. unfold k1. lra.
Qed.
