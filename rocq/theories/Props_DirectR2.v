(** * Properties of DirectLiNGAM on data: the measures are those of the papers (C164, C04) *)
From Coq Require Import Reals Lra Lia Arith Bool List FunctionalExtensionality.
From Verif Require Import Prelude LibR SpecFcorr SpecDirectR SpecMeasure ModelDirectR ProofDirectR ProofDirectR2 ProofDirectR5 ProofDirectR6 ProofDirectR7 Props_DirectR.
From Verif Require ModelDirect.
Import ListNotations.
Open Scope R_scope.

Section Bridge.
Context (n : nat) (Pn : (0 < n)%nat).
Lemma standardised_zs : forall x, standardised n x = zs n x.
Proof. reflexivity. Qed.
Lemma zs_mean : forall x, std n x <> 0 -> mean n (zs n x) = 0.
Proof.
  intros x H. assert (R1 : rel n (fun s => s) (/ std n x) (- mean n x / std n x) x (zs n x)) by (intros s Hs; unfold zs; field; exact H).
  rewrite (rel_mean n n _ (sd_id n) Pn _ _ _ _ R1). field. exact H.
Qed.
Lemma zs_var : forall x, std n x <> 0 -> var n (zs n x) = 1.
Proof.
  intros x H. pose proof (zs_std n Pn x H) as S. unfold std in S. apply (f_equal (fun v => v * v)) in S. rewrite sqrt_sqrt in S by apply var_nonneg. lra.
Qed.
Lemma remainder_residual : forall x y, std n x <> 0 -> std n y <> 0 -> residual n (Some (zs n x)) (Some (zs n y)) = Some (remainder n x y).
Proof.
  intros x y Hx Hy. cbn [residual]. rewrite (zs_var y Hy). destruct (Req_EM_T 1 0); [lra|]. f_equal. apply functional_extensionality. intro s.
  unfold remainder, correlation. change (standardised n x) with (zs n x). change (standardised n y) with (zs n y).
  replace (cov n (zs n x) (zs n y)) with (average n (fun s => zs n x s * zs n y s)); [field|].
  unfold cov. rewrite !zs_mean by assumption. unfold average, mean. f_equal. apply rsum_ext. intros t _. ring.
Qed.
Lemma remainder_mean : forall x y, std n x <> 0 -> std n y <> 0 -> mean n (remainder n x y) = 0.
Proof.
  intros x y Hx Hy. unfold remainder. change (standardised n x) with (zs n x). change (standardised n y) with (zs n y).
  pose proof (zs_mean x Hx) as A. pose proof (zs_mean y Hy) as B. unfold mean in *. set (c := correlation n x y).
  rewrite (rsum_ext n _ (fun s => zs n x s + - c * zs n y s)) by (intros; ring). rewrite rsum_plus, rsum_scal.
  unfold Rdiv in *. rewrite Rmult_plus_distr_r, A, Rmult_assoc, B. ring.
Qed.
Lemma unit_remainder : forall x y, std n x <> 0 -> std n y <> 0 -> ~ linearly_related n x y ->
  unit_std n (Some (remainder n x y)) = Some (standardised n (remainder n x y)).
Proof.
  intros x y Hx Hy NR. pose proof (unit_residual_none n Pn x y Hx Hy) as U. rewrite (remainder_residual x y Hx Hy) in U.
  cbn [unit_std] in *. destruct (Req_EM_T (std n (remainder n x y)) 0) as [E|E]; [exfalso; apply NR, U; reflexivity|].
  f_equal. apply functional_extensionality. intro s. rewrite standardised_zs. unfold zs. rewrite (remainder_mean x y Hx Hy). f_equal. ring.
Qed.
Lemma entropy_approx : forall u, entropy_of n u = approx_entropy n u.
Proof. intro u. unfold entropy_of, approx_entropy, k1, k2, gamma. change (mean n) with (average n). lra. Qed.
Lemma std_of_unrelated : forall x y, ~ linearly_related n x y -> std n x <> 0 /\ std n y <> 0.
Proof. intros x y NR. split; intro E; apply NR; [|apply related_sym]; apply const_related; assumption. Qed.

Lemma kernel_entry_gaussian : forall sigma a b, kernel_entry sigma a b = gaussian sigma a b.
Proof. intros. unfold kernel_entry, gaussian. f_equal. unfold Rdiv. ring. Qed.
Lemma mi_kernel : forall logsv x y kappa sigma,
  mutual_information logsv n (Some x) (Some y) kappa sigma = Ok (kernel_mi logsv n kappa sigma x y).
Proof.
  intros logsv x y kappa sigma. unfold mutual_information. cbv zeta. f_equal. unfold kernel_mi. cbv zeta.
  assert (K : forall x, kernel_matrix sigma x = fun s t => gaussian sigma (x s) (x t)) by (intro v; apply functional_extensionality; intro s; apply functional_extensionality; intro t; apply kernel_entry_gaussian).
  rewrite !K.
  assert (RG : forall A, ridge n kappa A = fun s t => A s t + (if (s =? t)%nat then INR n * kappa / 2 else 0)).
  { intro A. apply functional_extensionality. intro s. apply functional_extensionality. intro t. unfold ridge, rid. destruct (s =? t)%nat; unfold Rdiv; ring. }
  rewrite !RG. unfold blocks. lra.
Qed.
End Bridge.

(** C164.  The order of two variables that are not linearly related, in the formulas of the papers: pairwise likelihood
    ratio with Hyvarinen's entropy approximation, and kernel mutual information of a variable and the remainder of the
    other, with width 1 and regularisation 0.02, or 1/2 and 0.002 for more than 1000 rows. *)
Theorem C164_pwling_formula : forall logsv n pk_shape_ok (X : nat -> nat -> R), (0 < n)%nat ->
  ~ linearly_related n (X 0%nat) (X 1%nat) ->
  let H := approx_entropy n in
  let z := fun i => standardised n (X i) in
  let u := fun i j => standardised n (remainder n (X i) (X j)) in
  fit_order logsv ModelDirect.Pwling n 2 pk_shape_ok ModelDirect.NoPK X
  = Ok (if Rle_dec (H (z 0%nat) + H (u 1%nat 0%nat)) (H (z 1%nat) + H (u 0%nat 1%nat)) then [0%nat; 1%nat] else [1%nat; 0%nat]).
Proof.
  intros logsv n ok X Hn NR H z u. destruct (C164_two_variables logsv n ok X Hn NR) as (H0 & H1 & H01 & H10 & E0 & E1 & E01 & E10 & F).
  destruct (std_of_unrelated n Hn _ _ NR) as [S0 S1]. assert (NR' : ~ linearly_related n (X 1%nat) (X 0%nat)) by (intro Q; apply NR, related_sym, Q).
  cbv beta in *. rewrite !standardize_none in *. destruct (Req_EM_T (std n (X 0%nat)) 0); [contradiction|]. destruct (Req_EM_T (std n (X 1%nat)) 0); [contradiction|].
  rewrite (remainder_residual n Hn) in E01, E10 by assumption. rewrite (unit_remainder n Hn) in E01, E10 by assumption.
  cbn [entropy option_map] in *. rewrite entropy_approx in *. injection E0 as E0. injection E1 as E1. injection E01 as E01. injection E10 as E10.
  rewrite F. subst H0 H1 H01 H10. reflexivity.
Qed.
Print Assumptions C164_pwling_formula.
Theorem C164_kernel_formula : forall logsv n pk_shape_ok (X : nat -> nat -> R), (0 < n)%nat ->
  ~ linearly_related n (X 0%nat) (X 1%nat) ->
  let I := kernel_mi logsv n (if (n <=? 1000)%nat then 0.02 else 0.002) (if (n <=? 1000)%nat then 1 else 1 / 2) in
  let z := fun i => standardised n (X i) in
  fit_order logsv ModelDirect.Kernel n 2 pk_shape_ok ModelDirect.NoPK X
  = Ok (if Rle_dec (I (z 0%nat) (remainder n (X 1%nat) (X 0%nat))) (I (z 1%nat) (remainder n (X 0%nat) (X 1%nat))) then [0%nat; 1%nat] else [1%nat; 0%nat]).
Proof.
  intros logsv n ok X Hn NR I z. destruct (std_of_unrelated n Hn _ _ NR) as [S0 S1].
  assert (SC : forall j, std n (X j) <> 0 -> scale n (X j) = zs n (X j)). { intros j S. unfold scale, zs. destruct (Req_EM_T (std n (X j)) 0); [contradiction|reflexivity]. }
  unfold fit_order. replace (n =? 0)%nat with false by (symmetry; apply Nat.eqb_neq; lia). cbn [orb Nat.eqb]. cbn [seq loop]. unfold search at 1. cbn [ModelDirect.search_candidate traverse].
  assert (KP : kernel_params n = ((if (n <=? 1000)%nat then 0.02 else 0.002), (if (n <=? 1000)%nat then 1 else 1 / 2))).
  { unfold kernel_params. destruct (Nat.ltb_spec 1000 n), (Nat.leb_spec n 1000); try lia; f_equal; lra. }
  assert (K0 : kernel_score logsv n (fun j => Some (scale n (X j))) [0%nat; 1%nat] [0%nat; 1%nat] [] 0 = Ok (Some (I (z 0%nat) (remainder n (X 1%nat) (X 0%nat))))).
  { unfold kernel_score. rewrite KP. cbn [fold_left Nat.eqb memb existsb andb bind]. rewrite (SC 0%nat S0), (SC 1%nat S1), (remainder_residual n Hn) by assumption.
    rewrite (mi_kernel n logsv). cbn [bind]. f_equal. f_equal. apply Rplus_0_l. }
  assert (K1 : kernel_score logsv n (fun j => Some (scale n (X j))) [0%nat; 1%nat] [0%nat; 1%nat] [] 1 = Ok (Some (I (z 1%nat) (remainder n (X 0%nat) (X 1%nat))))).
  { unfold kernel_score. rewrite KP. cbn [fold_left Nat.eqb memb existsb andb bind]. rewrite (SC 0%nat S0), (SC 1%nat S1), (remainder_residual n Hn) by assumption.
    rewrite (mi_kernel n logsv). cbn [bind]. f_equal. f_equal. apply Rplus_0_l. }
  rewrite K0, K1. cbn [bind argmin argbest]. unfold Rltb.
  set (a := I (z 0%nat) _). set (b := I (z 1%nat) _). destruct (Rlt_dec b a) as [L|L], (Rle_dec a b) as [L'|L']; try lra; reflexivity.
Qed.
Print Assumptions C164_kernel_formula.
Example C164_example_formula : ~ linearly_related 4 (ex_data 0%nat) (ex_data 1%nat).
Proof. exact ex_not_related. Qed.

(** C04, on data.  Prior knowledge of the wrong shape is a ValueError, strong or soft, for both measures. *)
Theorem C04_wrong_shape : forall logsv ms n p pk (X : nat -> nat -> R),
  fit_order logsv ms n p false (ModelDirect.Strong pk) X = Err ValueError /\ fit_order logsv ms n p false (ModelDirect.Soft pk) X = Err ValueError.
Proof. intros. unfold fit_order. destruct ((n =? 0)%nat || (p =? 0)%nat); split; reflexivity. Qed.
Print Assumptions C04_wrong_shape.
