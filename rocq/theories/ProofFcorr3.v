(** * F-correlation: the whole function, symmetry and invariance *)
From Coq Require Import Reals Lra Lia Arith Bool List FunctionalExtensionality.
From Verif Require Import Prelude LibR SpecKernel SpecFcorr ModelFcorr ProofKernel ProofHsicR ProofSpectral ProofChol ProofFcorr ProofFcorr2.
Open Scope R_scope.

Lemma std_0 : forall x, std 0 x = 0.
Proof. intro x. unfold std, mean. cbn [rsum]. unfold Rdiv. rewrite Rmult_0_l. apply sqrt_0. Qed.
Lemma low_gram_sym : forall n m U D, symmetric n (low_gram m U D).
Proof. intros n m U D i j _ _. apply rsum_ext. intros; ring. Qed.
Lemma low_gram_psd : forall n m U D, (forall k, (k < m)%nat -> 0 < D k) -> psd n (low_gram m U D).
Proof. intros n m U D P c. rewrite low_gram_form. apply rsum_nonneg. intros k Hk. apply Rmult_le_pos; [left; apply P; exact Hk|apply Rle_0_sqr]. Qed.

(** What one sample contributes, the same in every call. *)
Definition witness argsort eigh (n : nat) (x : nat -> R) (A : rmat) : Prop := exists m Rr U D,
  factor argsort eigh n (standardised n x) = Some (m, Rr, U) /\ factored n (INR n * kappa_of n / 2) m Rr U D /\ A = low_gram m U D.
Lemma fcorr_core : forall argsort eigh eigsh n m1 R1 U1 D1 m2 R2 U2 D2 x y rho, eigsh_spec eigsh -> (0 < n)%nat ->
  factor argsort eigh n (standardised n x) = Some (m1, R1, U1) -> factored n (INR n * kappa_of n / 2) m1 R1 U1 D1 ->
  factor argsort eigh n (standardised n y) = Some (m2, R2, U2) -> factored n (INR n * kappa_of n / 2) m2 R2 U2 D2 ->
  f_correlation argsort eigh eigsh n n x y = Ok rho ->
  0 <= rho < 1 /\ canonical_correlation n (INR n * kappa_of n / 2) (low_gram m1 U1 D1) (low_gram m2 U2 D2) rho.
Proof.
  intros argsort eigh eigsh n m1 R1 U1 D1 m2 R2 U2 D2 x y rho Ss Hn E1 F1 E2 F2 H. unfold f_correlation in H. rewrite Nat.eqb_refl in H. cbn [negb] in H.
  destruct (Req_EM_T (std n x) 0); [discriminate|]. destruct (Req_EM_T (std n y) 0); [discriminate|]. rewrite E1, E2 in H.
  destruct (eigsh (m1 + m2)%nat _) as [w|e] eqn:Ew in H; [|discriminate]. injection H as <-.
  destruct (Ss _ _ _ (rk_sym m1 m2 _) Ew) as [Eo Mi].
  pose proof (kappa_pos n) as K. assert (N : 0 < INR n) by (apply lt_0_INR; exact Hn).
  apply (core n m1 m2 (INR n * kappa_of n / 2) R1 R2 D1 D2 U1 U2); try assumption.
  assert (0 < INR n * kappa_of n) by (apply Rmult_lt_0_compat; lra). lra.
Qed.
Lemma canonical_unique : forall n t A B r1 r2, canonical_correlation n t A B r1 -> canonical_correlation n t A B r2 -> r1 = r2.
Proof.
  intros n t A B r1 r2 [U1 (a1 & b1 & N1 & M1 & <-)] [U2 (a2 & b2 & N2 & M2 & <-)]. apply Rle_antisym; [apply U2|apply U1]; assumption.
Qed.
Lemma canonical_sym : forall n t A B r, canonical_correlation n t A B r -> canonical_correlation n t B A r.
Proof.
  intros n t A B r [U (a & b & N & M & E)]. split.
  - intros b' a' Nb Na. rewrite (rsum_ext n _ (fun i => apply n A a' i * apply n B b' i)) by (intros; ring). apply U; assumption.
  - exists b, a. split; [exact M|]. split; [exact N|]. rewrite <- E. apply rsum_ext. intros; ring.
Qed.

(** ** Zero exactly when the two gram matrices are orthogonal *)
Lemma apply_scal : forall n A s a i, apply n A (fun j => s * a j) i = s * apply n A a i.
Proof. intros. unfold apply. rewrite <- rsum_scal. apply rsum_ext. intros; ring. Qed.
Lemma regularised_scal : forall n A t s a, norm2 n (regularised n A t (fun j => s * a j)) = s ^ 2 * norm2 n (regularised n A t a).
Proof. intros. unfold norm2, regularised. rewrite <- rsum_scal. apply rsum_ext. intros i _. rewrite apply_scal. ring. Qed.
Lemma regularised_unit_pos : forall n A t k, psd n A -> 0 < t -> (k < n)%nat -> 0 < norm2 n (regularised n A t (unit_vec k)).
Proof.
  intros n A t k P Ht Hk. assert (E : regularised n A t (unit_vec k) k = A k k + t).
  { unfold regularised, apply. rewrite (rsum_single n _ k Hk).
    - unfold unit_vec. rewrite Nat.eqb_refl. ring.
    - intros j _ Ne. unfold unit_vec. destruct (Nat.eqb_spec k j); [congruence|]. destruct (Nat.eqb_spec j k); [congruence|]. ring. }
  change (0 < dot n (regularised n A t (unit_vec k)) (regularised n A t (unit_vec k))). apply (dot_pos n _ k Hk).
  rewrite E. pose proof (psd_diag n A k P Hk). lra.
Qed.
Lemma apply_unit : forall n A k i, (k < n)%nat -> apply n A (unit_vec k) i = A i k.
Proof.
  intros n A k i Hk. unfold apply. rewrite (rsum_single n _ k Hk).
  - unfold unit_vec. rewrite Nat.eqb_refl. ring.
  - intros j _ Ne. unfold unit_vec. destruct (Nat.eqb_spec k j); [congruence|]. destruct (Nat.eqb_spec j k); [congruence|]. ring.
Qed.
Lemma inner_scal : forall n A B s t a b, rsum n (fun i => apply n A (fun j => s * a j) i * apply n B (fun j => t * b j) i) = s * t * rsum n (fun i => apply n A a i * apply n B b i).
Proof. intros. rewrite <- rsum_scal. apply rsum_ext. intros i _. rewrite !apply_scal. ring. Qed.
Lemma inv_sqrt_sq : forall v, 0 < v -> (/ sqrt v) ^ 2 * v = 1.
Proof. intros v H. replace v with (sqrt v ^ 2) at 2 by (apply pow2_sqrt; lra). pose proof (sqrt_lt_R0 v H). field. lra. Qed.
Lemma canonical_zero : forall n t A B, (0 < n)%nat -> 0 < t -> symmetric n A -> psd n A -> psd n B ->
  (canonical_correlation n t A B 0 <-> forall i j, (i < n)%nat -> (j < n)%nat -> rsum n (fun k => A i k * B k j) = 0).
Proof.
  intros n t A B Hn Ht SA PA PB. split.
  - intros [U _] i j Hi Hj. set (na := norm2 n (regularised n A t (unit_vec i))). set (nb := norm2 n (regularised n B t (unit_vec j))).
    assert (Pa : 0 < na) by (apply regularised_unit_pos; assumption). assert (Pb : 0 < nb) by (apply regularised_unit_pos; assumption).
    assert (X : rsum n (fun k => apply n A (unit_vec i) k * apply n B (unit_vec j) k) = rsum n (fun k => A i k * B k j)).
    { apply rsum_ext. intros k Hk. rewrite !apply_unit by assumption. rewrite (SA k i Hk Hi). reflexivity. }
    assert (S1 : 0 < / sqrt na) by (apply Rinv_0_lt_compat, sqrt_lt_R0; exact Pa). assert (S2 : 0 < / sqrt nb) by (apply Rinv_0_lt_compat, sqrt_lt_R0; exact Pb).
    assert (U1 := U (fun k => / sqrt na * unit_vec i k) (fun k => / sqrt nb * unit_vec j k)). cbn beta zeta in U1. rewrite !regularised_scal, inner_scal, X in U1. fold na nb in U1.
    assert (U2 := U (fun k => (- / sqrt na) * unit_vec i k) (fun k => / sqrt nb * unit_vec j k)). cbn beta zeta in U2. rewrite !regularised_scal, inner_scal, X in U2. fold na nb in U2.
    replace ((- / sqrt na) ^ 2) with ((/ sqrt na) ^ 2) in U2 by ring.
    specialize (U1 (inv_sqrt_sq na Pa) (inv_sqrt_sq nb Pb)). specialize (U2 (inv_sqrt_sq na Pa) (inv_sqrt_sq nb Pb)).
    assert (S : 0 < / sqrt na * / sqrt nb) by (apply Rmult_lt_0_compat; assumption). set (s := / sqrt na * / sqrt nb) in *.
    replace (- / sqrt na * / sqrt nb) with (- s) in U2 by (unfold s; ring). set (z := rsum n (fun k => A i k * B k j)) in *.
    assert (s * z = 0) by lra. apply Rmult_integral in H. destruct H as [H|H]; [|exact H]. clearbody s. exfalso; lra.
  - intro Z. assert (I0 : forall a b, rsum n (fun i => apply n A a i * apply n B b i) = 0).
    { intros a b. rewrite (rsum_ext n _ (fun i => rsum n (fun p => a p * rsum n (fun q => A p i * B i q * b q)))).
      - rewrite rsum_swap. apply rsum_0. intros p Hp. rewrite rsum_scal. rewrite rsum_swap. rewrite rsum_0; [ring|]. intros q Hq.
        rewrite rsum_scal_r. rewrite Z by assumption. ring.
      - intros i Hi. unfold apply at 1. rewrite <- rsum_scal_r. apply rsum_ext. intros p Hp. rewrite (SA i p Hi Hp). unfold apply. rewrite <- !rsum_scal. apply rsum_ext. intros; ring. }
    split.
    + intros a b _ _. rewrite I0. lra.
    + pose proof (regularised_unit_pos n A t 0 PA Ht Hn) as Pa. pose proof (regularised_unit_pos n B t 0 PB Ht Hn) as Pb.
      exists (fun k => / sqrt (norm2 n (regularised n A t (unit_vec 0))) * unit_vec 0 k), (fun k => / sqrt (norm2 n (regularised n B t (unit_vec 0))) * unit_vec 0 k).
      rewrite !regularised_scal. split; [apply inv_sqrt_sq; exact Pa|]. split; [apply inv_sqrt_sq; exact Pb|]. apply I0.
Qed.

(** ** Change of origin and scale *)
Lemma mean_affine : forall n a b x, (0 < n)%nat -> mean n (fun i => a * x i + b) = a * mean n x + b.
Proof.
  intros n a b x Hn. unfold mean. rewrite rsum_plus, rsum_scal, rsum_const. assert (0 < INR n) by (apply lt_0_INR; exact Hn). field. lra.
Qed.
Lemma std_affine : forall n a b x, std n (fun i => a * x i + b) = Rabs a * std n x.
Proof.
  intros n a b x. destruct n as [|n]; [rewrite !std_0; ring|]. unfold std. rewrite mean_affine by lia.
  rewrite <- (sqrt_Rsqr_abs a). rewrite <- sqrt_mult.
  - f_equal. unfold mean, Rsqr. replace (a * a * (rsum (S n) (fun i => (x i - rsum (S n) x / INR (S n)) ^ 2) / INR (S n)))
      with (rsum (S n) (fun i => a * a * (x i - rsum (S n) x / INR (S n)) ^ 2) / INR (S n)) by (rewrite rsum_scal; unfold Rdiv; ring).
    f_equal. apply rsum_ext. intros; ring.
  - apply Rle_0_sqr.
  - unfold mean. assert (0 < INR (S n)) by (apply lt_0_INR; lia). apply Rmult_le_pos; [apply rsum_nonneg; intros; apply pow2_ge_0|left; apply Rinv_0_lt_compat; assumption].
Qed.
Lemma standardised_affine : forall n a b x, (0 < n)%nat -> a <> 0 -> std n x <> 0 -> standardised n (fun i => a * x i + b) = (fun i => (a / Rabs a) * standardised n x i).
Proof.
  intros n a b x Hn Ha Hs. apply functional_extensionality. intro i. unfold standardised. rewrite mean_affine, std_affine by exact Hn.
  field. split; [exact Hs|apply Rabs_no_R0; exact Ha].
Qed.
Lemma sign_sq : forall a, a <> 0 -> (a / Rabs a) * (a / Rabs a) = 1.
Proof.
  intros a Ha. destruct (Rcase_abs a) as [N|P].
  - rewrite Rabs_left by exact N. field. exact Ha.
  - rewrite Rabs_right by exact P. field. exact Ha.
Qed.
Lemma squared_dist_sign : forall s a b, s * s = 1 -> squared_dist (s * a) (s * b) = squared_dist a b.
Proof. intros s a b H. unfold squared_dist. f_equal. replace (s * a * (s * a) + s * b * (s * b) - 2 * (s * a * (s * b))) with (s * s * (a * a + b * b - 2 * (a * b))) by ring. rewrite H. ring. Qed.
Lemma chol_step_sign : forall n x sigma s st, s * s = 1 -> chol_step n (fun i => s * x i) sigma st = chol_step n x sigma st.
Proof.
  intros n x sigma s st H. unfold chol_step.
  match goal with |- context [squared_dist (s * x (?P _)) (s * x (?P _))] => set (PP := P) end.
  assert (E : (fun r => exp (- (1 / 2) / sigma ^ 2 * squared_dist (s * x (PP r)) (s * x (PP (ci st))))) = (fun r => exp (- (1 / 2) / sigma ^ 2 * squared_dist (x (PP r)) (x (PP (ci st)))))).
  { apply functional_extensionality. intro r. rewrite squared_dist_sign by exact H. reflexivity. }
  cbv zeta. fold PP.
  set (K1 := fun r => exp (- (1 / 2) / sigma ^ 2 * squared_dist (s * x (PP r)) (s * x (PP (ci st))))) in *.
  set (K2 := fun r => exp (- (1 / 2) / sigma ^ 2 * squared_dist (x (PP r)) (x (PP (ci st))))) in *.
  assert (EK : forall r, exp (- (1 / 2) / sigma ^ 2 * squared_dist (s * x (PP r)) (s * x (PP (ci st)))) = exp (- (1 / 2) / sigma ^ 2 * squared_dist (x (PP r)) (x (PP (ci st))))) by (intro r; rewrite squared_dist_sign by exact H; reflexivity).
  f_equal.
  - apply functional_extensionality. intro r. destruct (ci st <? r)%nat; [|reflexivity]. f_equal. apply rsum_ext. intros k _. rewrite !EK. reflexivity.
  - apply functional_extensionality. intro r. apply functional_extensionality. intro c. rewrite !EK. reflexivity.
Qed.
Lemma chol_loop_sign : forall fuel n x sigma tol s st, s * s = 1 -> chol_loop fuel n (fun i => s * x i) sigma tol st = chol_loop fuel n x sigma tol st.
Proof.
  induction fuel as [|f IH]; intros n x sigma tol s st H; [reflexivity|]. cbn [chol_loop]. destruct (Rlt_dec _ _); [|reflexivity].
  rewrite chol_step_sign by exact H. apply IH. exact H.
Qed.
Lemma factor_sign : forall argsort eigh n x s, s * s = 1 -> factor argsort eigh n (fun i => s * x i) = factor argsort eigh n x.
Proof. intros. unfold factor, incomplete_cholesky. rewrite chol_loop_sign by assumption. reflexivity. Qed.
Lemma fcorr_affine : forall argsort eigh eigsh n x y a b c d, a <> 0 -> c <> 0 ->
  f_correlation argsort eigh eigsh n n (fun i => a * x i + b) (fun i => c * y i + d) = f_correlation argsort eigh eigsh n n x y.
Proof.
  intros argsort eigh eigsh n x y a b c d Ha Hc. unfold f_correlation. rewrite Nat.eqb_refl. cbn [negb]. rewrite !std_affine.
  pose proof (Rabs_pos_lt a Ha) as Pa. pose proof (Rabs_pos_lt c Hc) as Pc.
  destruct (Req_EM_T (std n x) 0) as [Zx|Nx].
  { destruct (Req_EM_T (Rabs a * std n x) 0) as [_|N]; [reflexivity|]. exfalso. apply N. rewrite Zx. ring. }
  destruct (Req_EM_T (Rabs a * std n x) 0) as [Z|_]; [apply Rmult_integral in Z; destruct Z; [lra|contradiction]|].
  destruct (Req_EM_T (std n y) 0) as [Zy|Ny].
  { destruct (Req_EM_T (Rabs c * std n y) 0) as [_|N]; [reflexivity|]. exfalso. apply N. rewrite Zy. ring. }
  destruct (Req_EM_T (Rabs c * std n y) 0) as [Z|_]; [apply Rmult_integral in Z; destruct Z; [lra|contradiction]|].
  destruct n as [|n]; [exfalso; apply Nx, std_0|].
  rewrite (standardised_affine (S n) a b x) by (try assumption; lia). rewrite (standardised_affine (S n) c d y) by (try assumption; lia).
  rewrite (factor_sign _ _ _ _ _ (sign_sq a Ha)), (factor_sign _ _ _ _ _ (sign_sq c Hc)). reflexivity.
Qed.
Lemma std_zero_iff : forall n x, (0 < n)%nat -> (std n x = 0 <-> forall i j, (i < n)%nat -> (j < n)%nat -> x i = x j).
Proof.
  intros n x Hn. assert (N : 0 < INR n) by (apply lt_0_INR; exact Hn). split.
  - intro H. unfold std in H. apply sqrt_eq_0 in H.
    + assert (Z : rsum n (fun i => (x i - mean n x) * (x i - mean n x)) = 0).
      { unfold mean at 1 in H. unfold Rdiv in H. apply Rmult_integral in H. destruct H as [H|H].
        - rewrite <- H. apply rsum_ext. intros; ring.
        - apply Rinv_neq_0_compat in H; [contradiction|lra]. }
      assert (E : forall i, (i < n)%nat -> x i = mean n x).
      { intros i Hi. destruct (Req_dec (x i - mean n x) 0) as [Q|Q]; [lra|]. exfalso. pose proof (dot_pos n (fun i => x i - mean n x) i Hi Q) as P. unfold dot in P. rewrite Z in P. lra. }
      intros i j Hi Hj. rewrite (E i Hi), (E j Hj). reflexivity.
    + unfold mean at 1. apply Rmult_le_pos; [apply rsum_nonneg; intros; apply pow2_ge_0|left; apply Rinv_0_lt_compat; exact N].
  - intro H. assert (M : mean n x = x 0%nat).
    { unfold mean. rewrite (rsum_ext n x (fun _ => x 0%nat)) by (intros; apply H; lia). rewrite rsum_const. field. lra. }
    unfold std. rewrite M. unfold mean. rewrite rsum_0; [unfold Rdiv; rewrite Rmult_0_l; apply sqrt_0|]. intros i Hi. rewrite (H i 0%nat Hi Hn). ring.
Qed.
Lemma rsum_term_le : forall n f i, (forall k, (k < n)%nat -> 0 <= f k) -> (i < n)%nat -> f i <= rsum n f.
Proof.
  intros n f i P Hi. apply Rle_trans with (rsum n (fun k => if (k =? i)%nat then f i else 0)).
  - rewrite (rsum_single n _ i Hi); [rewrite Nat.eqb_refl; lra|]. intros k _ Ne. destruct (Nat.eqb_spec k i); [contradiction|reflexivity].
  - apply rsum_le. intros k Hk. destruct (Nat.eqb_spec k i) as [->|]; [lra|apply P; exact Hk].
Qed.
