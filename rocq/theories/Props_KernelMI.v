(** * Properties of the kernel measure of DirectLiNGAM (C177) *)
From Coq Require Import Reals Lra Lia Arith Bool List ZArith.
From Verif Require Import Prelude LibR SpecKernel SpecLogdet SpecMeasure SpecKernelMI SpecDirectR ModelDirectR ProofKernel ProofSpectral ProofLogdet ProofKernelMI ProofInterval Props_DirectR2.
From Verif Require ModelDirect.
Import ListNotations.
Open Scope R_scope.

(** C177.  The kernel measure is positive for every sample ... *)
Theorem C177_positive : forall logsv n kappa sigma x y, log_singular_values logsv -> (0 < n)%nat -> 0 < kappa -> sigma <> 0 ->
  0 < kernel_mi logsv n kappa sigma x y.
Proof.
  intros logsv n kappa sigma x y O Hn Hk Hs. rewrite kernel_mi_gram.
  destruct (gram_mi_nonneg n _ (reg_pos n kappa Hn Hk) _ _ (gaussian_sym n sigma x) (gaussian_sym n sigma y) (gaussian_psd n sigma x Hs) (gaussian_psd n sigma y Hs) logsv O) as [[L|E] Z]; [exact L|].
  exfalso. symmetry in E. apply Z with (i := 0%nat) (j := 0%nat) in E; [|exact Hn|exact Hn]. unfold rmul in E.
  assert (P : forall v w k, 0 < gaussian_matrix sigma v 0%nat k * gaussian_matrix sigma w k 0%nat) by (intros v w k; unfold gaussian_matrix, gaussian; apply Rmult_lt_0_compat; apply exp_pos).
  pose proof (rsum_zero_all n _ (fun k _ => Rlt_le _ _ (P x y k)) E 0%nat Hn) as C. cbv beta in C. specialize (P x y 0%nat). lra.
Qed.
Print Assumptions C177_positive.
(** ... in particular for independent ones. *)
Theorem C177_zero_when_independent_refuted : forall logsv n kappa sigma x y, log_singular_values logsv -> (0 < n)%nat -> 0 < kappa -> sigma <> 0 ->
  independent_sample n x y -> kernel_mi logsv n kappa sigma x y <> 0.
Proof. intros logsv n kappa sigma x y O Hn Hk Hs _ E. pose proof (C177_positive logsv n kappa sigma x y O Hn Hk Hs). lra. Qed.
Print Assumptions C177_zero_when_independent_refuted.
(** With centred Gram matrices, as in the paper, it would be 0 for independent samples and only for them. *)
Theorem C177_centred_measures_dependence : forall logsv n kappa sigma x y, log_singular_values logsv -> (0 < n)%nat -> 0 < kappa -> sigma <> 0 ->
  0 <= centred_kernel_mi logsv n kappa sigma x y /\
  (centred_kernel_mi logsv n kappa sigma x y = 0 <-> independent_sample n x y).
Proof.
  intros logsv n kappa sigma x y O Hn Hk Hs. unfold centred_kernel_mi.
  destruct (gram_mi_nonneg n _ (reg_pos n kappa Hn Hk) _ _ (centred_sym n sigma x Hn) (centred_sym n sigma y Hn) (centred_psd n sigma x Hn Hs) (centred_psd n sigma y Hn Hs) logsv O) as [H1 H2].
  split; [exact H1|]. rewrite H2. split; intro H; [apply (products_independent n sigma x y Hn Hs H)|apply independent_products; assumption].
Qed.
Print Assumptions C177_centred_measures_dependence.
(** So with centring the cause would be preferred to the effect, whenever the noise is exactly independent: its score is 0, and
    that of the effect is positive unless the model holds in both directions. *)
Theorem C177_centred_prefers_the_cause : forall logsv n kappa sigma x y b, log_singular_values logsv -> (0 < n)%nat -> 0 < kappa -> sigma <> 0 ->
  ~ linearly_related n x y -> independent_sample n x (fun s => y s - b * x s) ->
  centred_kernel_mi logsv n kappa sigma (standardised n x) (remainder n y x) = 0 /\
  0 <= centred_kernel_mi logsv n kappa sigma (standardised n y) (remainder n x y) /\
  (~ independent_sample n y (remainder n x y) -> 0 < centred_kernel_mi logsv n kappa sigma (standardised n y) (remainder n x y)).
Proof.
  intros logsv n kappa sigma x y b O Hn Hk Hs NR I. destruct (std_of_unrelated n Hn x y NR) as [Sx Sy]. change (std n x) with (spread n x) in Sx. change (std n y) with (spread n y) in Sy.
  destruct (C177_centred_measures_dependence logsv n kappa sigma (standardised n x) (remainder n y x) O Hn Hk Hs) as [_ [_ Z]].
  destruct (C177_centred_measures_dependence logsv n kappa sigma (standardised n y) (remainder n x y) O Hn Hk Hs) as [P [Z' _]]. split; [|split; [exact P|]].
  - apply Z. apply (independent_map n x (fun s => y s - b * x s) (fun a => (a - average n x) / spread n x) (fun a => (a - average n (fun s => y s - b * x s)) / spread n y) _ _ I); intros s Hs'; [reflexivity|].
    apply (remainder_noise n x y b Hn Sx Sy I).
  - intro NI. destruct P as [P|P]; [exact P|]. exfalso. apply NI. symmetry in P. specialize (Z' P).
    apply (independent_map n (standardised n y) (remainder n x y) (fun a => a * spread n y + average n y) (fun a => a) _ _ Z'); intros s Hs'; [|reflexivity].
    unfold standardised. fold (spread n y). field. exact Sy.
Qed.
Print Assumptions C177_centred_prefers_the_cause.
(** An oracle as assumed exists. *)
Example C177_example_oracle : log_singular_values logdet.
Proof. intros m A L T P E. rewrite (logdet_ext m _ _ E). apply logdet_cholesky; assumption. Qed.

(** ** A sample with exactly independent noise, and the wrong order *)
Definition x0z (s : nat) : Z := nth s [0; 0; 15; 15]%Z 0%Z.
Definition ez (s : nat) : Z := nth s [0; 1; 0; 1]%Z 0%Z.
Definition kx (j s : nat) : R := match j with O => IZR (x0z s) | _ => IZR (x0z s + ez s) end.
Definition q : R := sqrt (113 / 2).
Lemma q_sq : q * q = 113 / 2. Proof. apply sqrt_sqrt. lra. Qed.
Lemma q_nz : q <> 0. Proof. intro E. pose proof q_sq as H. rewrite E in H. lra. Qed.
Lemma kx0_standard : forall s, standardised 4 (kx 0%nat) s = (IZR (x0z s) - 15 / 2) / (15 / 2).
Proof.
  intro s. unfold standardised, average, kx. cbn [rsum]. unfold x0z. cbn [nth INR]. 
  replace (0 + 0 + 0 + 15 + 15) with 30 by ring. replace (30 / (1 + 1 + 1 + 1)) with (15 / 2) by field.
  replace ((0 + (0 - 15 / 2) ^ 2 + (0 - 15 / 2) ^ 2 + (15 - 15 / 2) ^ 2 + (15 - 15 / 2) ^ 2) / (1 + 1 + 1 + 1)) with ((15 / 2) * (15 / 2)) by field.
  rewrite sqrt_square by lra. reflexivity.
Qed.
Lemma kx1_standard : forall s, standardised 4 (kx 1%nat) s = (IZR (x0z s + ez s) - 8) / q.
Proof.
  intro s. unfold standardised, average, kx. cbn [rsum]. unfold x0z, ez. cbn [nth INR Z.add Pos.add Pos.succ Pos.add_carry].
  replace (0 + 0 + 1 + 15 + 16) with 32 by ring. replace (32 / (1 + 1 + 1 + 1)) with 8 by field.
  replace ((0 + (0 - 8) ^ 2 + (1 - 8) ^ 2 + (15 - 8) ^ 2 + (16 - 8) ^ 2) / (1 + 1 + 1 + 1)) with (113 / 2) by field. reflexivity.
Qed.
Lemma corr01 : correlation 4 (kx 0%nat) (kx 1%nat) = (15 / 2) / q.
Proof.
  unfold correlation, average. cbn [rsum INR]. rewrite !kx0_standard, !kx1_standard. unfold x0z, ez. cbn [nth Z.add Pos.add Pos.succ Pos.add_carry]. field. exact q_nz.
Qed.
Lemma corr10 : correlation 4 (kx 1%nat) (kx 0%nat) = (15 / 2) / q.
Proof. rewrite <- corr01. unfold correlation, average. f_equal. apply rsum_ext. intros; ring. Qed.
Lemma rem10 : forall s, remainder 4 (kx 1%nat) (kx 0%nat) s = (IZR (ez s) - 1 / 2) / q.
Proof. intro s. unfold remainder. rewrite corr10, kx0_standard, kx1_standard, plus_IZR. field. exact q_nz. Qed.
Lemma rem01 : forall s, remainder 4 (kx 0%nat) (kx 1%nat) s = IZR (226 * x0z s - 225 * (x0z s + ez s) + 105) / 1695.
Proof.
  intro s. unfold remainder. rewrite corr01, kx0_standard, kx1_standard.
  replace (15 / 2 / q * ((IZR (x0z s + ez s) - 8) / q)) with (15 / 2 * (IZR (x0z s + ez s) - 8) / (q * q)) by (field; exact q_nz). rewrite q_sq.
  rewrite !plus_IZR, minus_IZR, !mult_IZR, !plus_IZR. field.
Qed.
(** The rows: x0 = 0, 0, 15, 15 and x1 = x0 + e with e = 0, 1, 0, 1. *)
Example C177_example_data : map (kx 0%nat) [0; 1; 2; 3]%nat = [0; 0; 15; 15] /\ map (kx 1%nat) [0; 1; 2; 3]%nat = [0; 1; 15; 16].
Proof. split; reflexivity. Qed.
Lemma ex_independent : independent_sample 4 (kx 0%nat) (fun s => kx 1%nat s - kx 0%nat s).
Proof. intros f g. unfold average, kx. cbn [rsum INR]. unfold x0z, ez. cbn [nth Z.add Pos.add Pos.succ Pos.add_carry].
  replace (0 - 0) with 0 by ring. replace (1 - 0) with 1 by ring. replace (15 - 15) with 0 by ring. replace (16 - 15) with 1 by ring. field. Qed.
Lemma ex_unrelated : ~ linearly_related 4 (kx 0%nat) (kx 1%nat).
Proof.
  intros (a & b & c & D & H). pose proof (H 0%nat ltac:(lia)) as H0. pose proof (H 1%nat ltac:(lia)) as H1. pose proof (H 2%nat ltac:(lia)) as H2. cbn in H0, H1, H2. lra.
Qed.
Definition grid (den : Z) (num : nat -> nat -> Z) : imat := mk 4 (fun s t => iexp (num s t) den).
Definition Kz0 := grid 225 (fun s t => 2 * (x0z s - x0z t) ^ 2)%Z.
Definition Kr1 := grid 113 (fun s t => (ez s - ez t) ^ 2)%Z.
Definition Kz1 := grid 113 (fun s t => (x0z s + ez s - (x0z t + ez t)) ^ 2)%Z.
Definition Kr0 := grid 5746050 (fun s t => (226 * x0z s - 225 * (x0z s + ez s) - (226 * x0z t - 225 * (x0z t + ez t))) ^ 2)%Z.
Lemma IZR_sq : forall z, IZR (z ^ 2) = IZR z * IZR z.
Proof. intro z. rewrite <- mult_IZR. f_equal. ring. Qed.
Lemma grid_in : forall den num x, (0 < den)%Z -> (forall s t, (0 <= num s t)%Z) -> (forall s t, (x s - x t) ^ 2 / 2 = IZR (num s t) / IZR den) -> inM 4 (grid den num) (gaussian_matrix 1 x).
Proof.
  intros den num x Hd Hn E. apply mk_in. intros s t _ _. unfold gaussian_matrix, gaussian. apply iexp_in; [apply Hn|exact Hd|]. rewrite <- E. field.
Qed.
Lemma Kz0_in : inM 4 Kz0 (gaussian_matrix 1 (standardised 4 (kx 0%nat))).
Proof. apply grid_in; [reflexivity| |]; intros s t; [pose proof (Z.pow_even_nonneg (x0z s - x0z t) 2 ltac:(exists 1%Z; reflexivity)); lia|]. rewrite !kx0_standard, mult_IZR, IZR_sq, minus_IZR. field. Qed.
Lemma over_q : forall a b, (a / q - b / q) ^ 2 / 2 = (a - b) * (a - b) / 113.
Proof. intros a b. replace ((a / q - b / q) ^ 2 / 2) with ((a - b) * (a - b) / (q * q) / 2) by (field; exact q_nz). rewrite q_sq. field. Qed.
Lemma Kr1_in : inM 4 Kr1 (gaussian_matrix 1 (remainder 4 (kx 1%nat) (kx 0%nat))).
Proof. apply grid_in; [reflexivity| |]; intros s t; [apply Z.pow_even_nonneg; exists 1%Z; reflexivity|]. rewrite !rem10, over_q, IZR_sq, minus_IZR. field. Qed.
Lemma Kz1_in : inM 4 Kz1 (gaussian_matrix 1 (standardised 4 (kx 1%nat))).
Proof. apply grid_in; [reflexivity| |]; intros s t; [apply Z.pow_even_nonneg; exists 1%Z; reflexivity|]. rewrite !kx1_standard, over_q, IZR_sq, minus_IZR. field. Qed.
Lemma Kr0_in : inM 4 Kr0 (gaussian_matrix 1 (remainder 4 (kx 0%nat) (kx 1%nat))).
Proof. apply grid_in; [reflexivity| |]; intros s t; [apply Z.pow_even_nonneg; exists 1%Z; reflexivity|]. rewrite !rem01, IZR_sq, minus_IZR, !plus_IZR. field. Qed.

Definition ic : ival := irat 1 25.
Lemma ic_in : inI ic (INR 4 * 0.02 / 2).
Proof. replace (INR 4 * 0.02 / 2) with (IZR 1 / IZR 25) by (cbn [INR]; lra). apply irat_in. reflexivity. Qed.
Definition cross_less (a b c d : option ival) : bool :=
  match a, b, c, d with
  | Some a, Some b, Some c, Some d => ((0 <? fst a) && (0 <? fst b) && (0 <? fst c) && (0 <? fst d) && (snd a * snd b <? fst c * fst d))%Z
  | _, _, _, _ => false
  end.
Lemma cross_less_in : forall a b c d ra rb rc rd, (forall I, a = Some I -> inI I ra) -> (forall I, b = Some I -> inI I rb) -> (forall I, c = Some I -> inI I rc) ->
  (forall I, d = Some I -> inI I rd) -> cross_less a b c d = true -> ra * rb < rc * rd.
Proof.
  intros [a|] [b|] [c|] [d|] ra rb rc rd A B C D H; try discriminate. specialize (A a eq_refl). specialize (B b eq_refl). specialize (C c eq_refl). specialize (D d eq_refl).
  cbn [cross_less] in H. rewrite !andb_true_iff, !Z.ltb_lt in H. destruct H as [[[[Pa Pb] Pc] Pd] L]. apply IZR_lt in Pa, Pb, Pc, Pd, L. rewrite !mult_IZR in L. pose proof SC_posR as P.
  destruct A as [A1 A2], B as [B1 B2], C as [C1 C2], D as [D1 D2].
  assert (H1 : (ra * IZR SC) * (rb * IZR SC) <= IZR (snd a) * IZR (snd b)) by (apply Rmult_le_compat; lra).
  assert (H2 : IZR (fst c) * IZR (fst d) <= (rc * IZR SC) * (rd * IZR SC)) by (apply Rmult_le_compat; lra).
  apply Rmult_lt_reg_r with (IZR SC * IZR SC); [apply Rmult_lt_0_compat; exact P|]. lra.
Qed.
Lemma ex_cross : cross_less (ipivots 8 (ijoint 4 ic Kz0 Kr1)) (ipivots 8 (iseparate 4 ic Kz1 Kr0)) (ipivots 8 (ijoint 4 ic Kz1 Kr0)) (ipivots 8 (iseparate 4 ic Kz0 Kr1)) = true.
Proof. vm_cast_no_check (eq_refl true). Qed.
Lemma ex_scores : forall logsv, log_singular_values logsv ->
  kernel_mi logsv 4 0.02 1 (standardised 4 (kx 1%nat)) (remainder 4 (kx 0%nat) (kx 1%nat)) < kernel_mi logsv 4 0.02 1 (standardised 4 (kx 0%nat)) (remainder 4 (kx 1%nat) (kx 0%nat)).
Proof.
  intros logsv O. rewrite !kernel_mi_gram. set (c := INR 4 * 0.02 / 2). assert (Pc : 0 < c) by (apply reg_pos; [lia|lra]). assert (N1 : 1 <> 0) by lra.
  set (K0 := gaussian_matrix 1 (standardised 4 (kx 0%nat))). set (L0 := gaussian_matrix 1 (remainder 4 (kx 1%nat) (kx 0%nat))).
  set (K1 := gaussian_matrix 1 (standardised 4 (kx 1%nat))). set (L1 := gaussian_matrix 1 (remainder 4 (kx 0%nat) (kx 1%nat))).
  assert (S : forall x, sym 4 (gaussian_matrix 1 x)) by (intro; apply gaussian_sym). assert (PS : forall x, psd 4 (gaussian_matrix 1 x)) by (intro; apply gaussian_psd; exact N1).
  assert (J : forall K L, sym 4 K -> sym 4 L -> psd 4 K -> psd 4 L -> gram_mi logsv 4 c K L = - (ln (pivots 8 (joint 4 c K L)) - ln (pivots 8 (separate 4 c K L))) / 2
    /\ 0 < pivots 8 (joint 4 c K L) /\ 0 < pivots 8 (separate 4 c K L)).
  { intros K L SK SL PK PL. pose proof (joint_sym 4 c K L SK SL) as JS. pose proof (joint_pd 4 c Pc K L SK SL PK PL) as JP. pose proof (separate_sym 4 c K L SK SL) as DS. pose proof (separate_pd 4 c Pc K L SK SL PK PL) as DP.
    unfold gram_mi. rewrite !(oracle_logdet logsv O) by assumption. destruct (logdet_pivots _ _ JS JP) as [J1 J2]. destruct (logdet_pivots _ _ DS DP) as [D1 D2].
    rewrite J2, D2. change (4 + 4)%nat with 8%nat in *. split; [reflexivity|split; assumption]. }
  destruct (J K0 L0 (S _) (S _) (PS _) (PS _)) as (E0 & PJ0 & PD0). destruct (J K1 L1 (S _) (S _) (PS _) (PS _)) as (E1 & PJ1 & PD1). rewrite E0, E1.
  assert (X : pivots 8 (joint 4 c K0 L0) * pivots 8 (separate 4 c K1 L1) < pivots 8 (joint 4 c K1 L1) * pivots 8 (separate 4 c K0 L0)).
  { apply (cross_less_in _ _ _ _ _ _ _ _) with (5 := ex_cross); intros I EI; (eapply ipivots_in; [|exact EI]).
    - apply (ijoint_in 4 ic c Kz0 Kr1 K0 L0 ic_in Kz0_in Kr1_in).
    - apply (iseparate_in 4 ic c Kz1 Kr0 K1 L1 ic_in Kz1_in Kr0_in).
    - apply (ijoint_in 4 ic c Kz1 Kr0 K1 L1 ic_in Kz1_in Kr0_in).
    - apply (iseparate_in 4 ic c Kz0 Kr1 K0 L0 ic_in Kz0_in Kr1_in). }
  apply ln_increasing in X; [|apply Rmult_lt_0_compat; assumption]. rewrite !ln_mult in X by assumption. lra.
Qed.

(** C177.  The second variable is the first plus noise that is exactly independent of it, and the variables are not linearly
    related.  The kernel measure gives the order with the second variable first. *)
Theorem C177_order_with_independent_noise_refuted : exists X : nat -> nat -> R,
  independent_sample 4 (X 0%nat) (fun s => X 1%nat s - X 0%nat s) /\ ~ linearly_related 4 (X 0%nat) (X 1%nat) /\
  forall logsv pk_shape_ok, log_singular_values logsv ->
    fit_order logsv ModelDirect.Kernel 4 2 pk_shape_ok ModelDirect.NoPK X = Ok [1%nat; 0%nat].
Proof.
  exists kx. split; [exact ex_independent|]. split; [exact ex_unrelated|]. intros logsv ok O. pose proof (C164_kernel_formula logsv 4 ok kx ltac:(lia) ex_unrelated) as F. cbv zeta in F.
  change (4 <=? 1000)%nat with true in F. cbn iota in F. rewrite F. destruct (Rle_dec _ _) as [L|L]; [|reflexivity]. exfalso. pose proof (ex_scores logsv O). lra.
Qed.
Print Assumptions C177_order_with_independent_noise_refuted.

(** The hypotheses of [C177_centred_prefers_the_cause] hold here: with centring the order would be right. *)
Example C177_example_centred : forall logsv, log_singular_values logsv ->
  centred_kernel_mi logsv 4 0.02 1 (standardised 4 (kx 0%nat)) (remainder 4 (kx 1%nat) (kx 0%nat))
  < centred_kernel_mi logsv 4 0.02 1 (standardised 4 (kx 1%nat)) (remainder 4 (kx 0%nat) (kx 1%nat)).
Proof.
  intros logsv O. destruct (C177_centred_prefers_the_cause logsv 4 0.02 1 (kx 0%nat) (kx 1%nat) 1 O ltac:(lia) ltac:(lra) ltac:(lra) ex_unrelated) as (E & _ & P).
  - intros f g. rewrite (average_ext 4 (fun s => f (kx 0%nat s) * g (kx 1%nat s - 1 * kx 0%nat s)) (fun s => f (kx 0%nat s) * g (kx 1%nat s - kx 0%nat s))) by (intros; rewrite Rmult_1_l; reflexivity).
    rewrite (average_ext 4 (fun s => g (kx 1%nat s - 1 * kx 0%nat s)) (fun s => g (kx 1%nat s - kx 0%nat s))) by (intros; rewrite Rmult_1_l; reflexivity). apply ex_independent.
  - rewrite E. apply P. intro I. specialize (I (fun a => if Req_EM_T a 0 then 1 else 0) (fun a => if Req_EM_T a (105 / 1695) then 1 else 0)). unfold average in I. cbn [rsum INR] in I.
    assert (R0 : remainder 4 (kx 0%nat) (kx 1%nat) 0 = 105 / 1695) by (rewrite rem01; reflexivity). assert (R1 : remainder 4 (kx 0%nat) (kx 1%nat) 1 = -120 / 1695) by (rewrite rem01; reflexivity).
    assert (R2 : remainder 4 (kx 0%nat) (kx 1%nat) 2 = 120 / 1695) by (rewrite rem01; reflexivity). assert (R3 : remainder 4 (kx 0%nat) (kx 1%nat) 3 = -105 / 1695) by (rewrite rem01; reflexivity).
    rewrite R0, R1, R2, R3 in I. change (kx 1%nat 0%nat) with 0 in I. change (kx 1%nat 1%nat) with 1 in I. change (kx 1%nat 2%nat) with 15 in I. change (kx 1%nat 3%nat) with 16 in I.
    repeat match type of I with context [Req_EM_T ?a ?b] => destruct (Req_EM_T a b); [try (exfalso; lra)|try (exfalso; lra)] end; lra.
Qed.
