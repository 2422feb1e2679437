(** * Properties of the F-correlation (C153-C155)

    lingam/utils/_f_correlation.py over the real numbers, with numpy.argsort, scipy.linalg.eigh and scipy.sparse.linalg.eigsh as
    parameters that meet the specifications of SpecFcorr.v. *)
From Coq Require Import Reals Lra Lia Arith Bool List.
From Verif Require Import Prelude LibR SpecKernel SpecFcorr ModelFcorr ProofKernel ProofHsicR ProofSpectral ProofSpectral2 ProofChol ProofChol2 ProofFcorr ProofFcorr2 ProofFcorr3.
Open Scope R_scope.

(** ** C153: the incomplete Cholesky decomposition *)
(** It ends within n rounds; P orders the samples; G is lower trapezoidal with a positive diagonal; with the rows put back in
    the order of the samples, G G^T is below the Gaussian gram matrix, the difference has trace at most tol and no entry above tol. *)
Theorem C153_incomplete_cholesky : forall argsort n x sigma tol, argsort_spec argsort -> sigma <> 0 -> 0 <= tol ->
  exists r G P, incomplete_cholesky n x sigma tol = Some (r, G, P) /\ (r <= n)%nat /\ perm_below n P /\
    (forall i k, (i < k)%nat -> (i < n)%nat -> (k < r)%nat -> G i k = 0) /\ (forall k, (k < r)%nat -> 0 < G k k) /\
    let back := argsort n (fun i => INR (P i)) in
    let E := fun i j => gauss sigma x i j - rsum r (fun k => G (back i) k * G (back j) k) in
    psd n E /\ rsum n (fun i => E i i) <= tol /\ (forall i j, (i < n)%nat -> (j < n)%nat -> Rabs (E i j) <= tol) /\
    (forall i k, (i < n)%nat -> (k < r)%nat -> E i (P k) = 0).
Proof.
  intros argsort n x sigma tol Sa Hs Ht. destruct (chol_result n x sigma tol Hs Ht) as (r & G & P & E & Le & _ & Pp & Low & Piv & Z & PS & Tr). cbn zeta in Z, PS, Tr.
  exists r, G, P. split; [exact E|]. split; [exact Le|]. split; [exact Pp|]. split; [exact Low|]. split; [exact Piv|]. cbv zeta.
  set (a := argsort n (fun i => INR (P i))). assert (Pa : perm_below n a) by apply Sa.
  assert (Inv : forall k, (k < n)%nat -> P (a k) = k) by (intros; apply argsort_inverse; assumption).
  set (S0 := fun i j => kern x sigma (P i) (P j) - rsum r (fun k => G i k * G j k)) in *.
  set (E0 := fun i j => gauss sigma x i j - rsum r (fun k => G (a i) k * G (a j) k)).
  assert (EE : forall i j, (i < n)%nat -> (j < n)%nat -> E0 i j = S0 (a i) (a j)).
  { intros i j Hi Hj. unfold E0, S0. rewrite !Inv, kern_gauss by assumption. reflexivity. }
  assert (PE : psd n E0).
  { intro c. assert (Q : qform n E0 c = qform n (fun i j => S0 (a i) (a j)) c) by (apply qform_ext; intros; rewrite EE by assumption; reflexivity). rewrite Q. apply psd_perm; assumption. }
  assert (SE : sym n E0).
  { intros i j Hi Hj. unfold E0. rewrite <- !kern_gauss by exact Hs. rewrite kern_sym. f_equal. apply rsum_ext. intros; ring. }
  assert (TE : rsum n (fun i => E0 i i) <= tol).
  { rewrite (rsum_ext n _ (fun i => (fun k => S0 k k) (a i))) by (intros; apply EE; assumption). rewrite (rsum_perm n a (fun k => S0 k k) Pa). exact Tr. }
  assert (DE : forall i, (i < n)%nat -> 0 <= E0 i i <= tol).
  { intros i Hi. split; [apply (psd_diag n); assumption|]. eapply Rle_trans; [|exact TE]. apply (rsum_term_le n (fun i => E0 i i)); [intros; apply (psd_diag n); assumption|exact Hi]. }
  split; [exact PE|]. split; [exact TE|]. split.
  - intros i j Hi Hj. pose proof (psd_entry n E0 i j SE PE Hi Hj) as Q. pose proof (DE i Hi). pose proof (DE j Hj).
    apply Rsqr_incr_0_var; [|exact Ht]. rewrite <- Rsqr_abs. unfold Rsqr. eapply Rle_trans; [exact Q|]. apply Rmult_le_compat; lra.
  - intros i k Hi Hk. assert (Hkn : (k < n)%nat) by lia. assert (HPk : (P k < n)%nat) by (apply Pp; exact Hkn). rewrite EE by assumption.
    assert (Ek : a (P k) = k). { apply (proj2 Pp); [apply Pa; exact HPk|exact Hkn|]. apply Inv. exact HPk. }
    rewrite Ek. apply Z; [apply Pa; exact Hi|exact Hk].
Qed.
(** Every column was needed (before it, more than tol was missing from the trace), and every pivot is a largest one. *)
Theorem C153_greedy_and_needed : forall n x sigma tol r G P, sigma <> 0 -> 0 <= tol -> incomplete_cholesky n x sigma tol = Some (r, G, P) ->
  let missing := fun k a => 1 - rsum k (fun j => G a j ^ 2) in
  (forall k, (k < r)%nat -> tol < rsum n (missing k)) /\ (forall k a, (k < r)%nat -> (k <= a < n)%nat -> missing k a <= G k k ^ 2).
Proof. intros n x sigma tol r G P Hs Ht E. exact (chol_greedy n x sigma tol r G P Hs Ht E). Qed.
(** With tolerance zero the decomposition is exact. *)
Theorem C153_exact_without_tolerance : forall argsort n x sigma, argsort_spec argsort -> sigma <> 0 ->
  exists r G P, incomplete_cholesky n x sigma 0 = Some (r, G, P) /\
    forall i j, (i < n)%nat -> (j < n)%nat ->
      gauss sigma x i j = rsum r (fun k => G (argsort n (fun i => INR (P i)) i) k * G (argsort n (fun i => INR (P i)) j) k).
Proof.
  intros argsort n x sigma Sa Hs. destruct (C153_incomplete_cholesky argsort n x sigma 0 Sa Hs (Rle_refl 0)) as (r & G & P & E & _ & _ & _ & _ & _ & _ & B & _).
  exists r, G, P. split; [exact E|]. intros i j Hi Hj. specialize (B i j Hi Hj). cbv zeta in B.
  set (d := rsum r _) in *. pose proof (Rabs_pos (gauss sigma x i j - d)). assert (Z : Rabs (gauss sigma x i j - d) = 0) by lra.
  destruct (Req_dec (gauss sigma x i j - d) 0) as [Q|Q]; [lra|]. apply Rabs_no_R0 in Q. contradiction.
Qed.
Print Assumptions C153_incomplete_cholesky.
Print Assumptions C153_greedy_and_needed.
Print Assumptions C153_exact_without_tolerance.

(** ** C154: what the number is *)
(** A returned value lies in [0, 1) and is the regularised first canonical correlation of two symmetric positive semidefinite
    matrices, each below the doubly centred Gaussian gram matrix of its standardised sample and within n kappa / 50 of it. *)
Theorem C154_value : forall argsort eigh eigsh n x y rho, argsort_spec argsort -> eigh_spec eigh -> eigsh_spec eigsh ->
  f_correlation argsort eigh eigsh n n x y = Ok rho ->
  let kappa := if (1000 <? n)%nat then 2 / 1000 else 2 / 100 in
  let sigma := if (1000 <? n)%nat then 1 / 2 else 1 in
  0 <= rho < 1 /\ exists A B, symmetric n A /\ psd n A /\ symmetric n B /\ psd n B /\
    approximates n A (double_centre n (gauss sigma (standardised n x))) (INR n * kappa * (2 / 100)) /\
    approximates n B (double_centre n (gauss sigma (standardised n y))) (INR n * kappa * (2 / 100)) /\
    canonical_correlation n (INR n * kappa / 2) A B rho.
Proof.
  intros argsort eigh eigsh n x y rho Sa Se Ss H. cbv zeta. destruct n as [|n].
  { exfalso. unfold f_correlation in H. rewrite std_0 in H. cbn [Nat.eqb negb] in H. destruct (Req_EM_T 0 0) as [_|N]; [discriminate|apply N; reflexivity]. }
  destruct (factor_spec argsort eigh (S n) (standardised (S n) x) Sa Se ltac:(lia)) as (m1 & R1 & U1 & D1 & E1 & F1 & A1).
  destruct (factor_spec argsort eigh (S n) (standardised (S n) y) Sa Se ltac:(lia)) as (m2 & R2 & U2 & D2 & E2 & F2 & A2).
  destruct (fcorr_core argsort eigh eigsh (S n) m1 R1 U1 D1 m2 R2 U2 D2 x y rho Ss ltac:(lia) E1 F1 E2 F2 H) as [B C].
  split; [exact B|]. exists (low_gram m1 U1 D1), (low_gram m2 U2 D2).
  split; [apply low_gram_sym|]. split; [apply low_gram_psd, F1|]. split; [apply low_gram_sym|]. split; [apply low_gram_psd, F2|].
  split; [exact A1|]. split; [exact A2|]. exact C.
Qed.
(** The value is zero exactly when the product of the two matrices is. *)
Theorem C154_zero : forall argsort eigh eigsh n x y rho, argsort_spec argsort -> eigh_spec eigh -> eigsh_spec eigsh ->
  f_correlation argsort eigh eigsh n n x y = Ok rho ->
  let kappa := if (1000 <? n)%nat then 2 / 1000 else 2 / 100 in
  let sigma := if (1000 <? n)%nat then 1 / 2 else 1 in
  exists A B, symmetric n A /\ psd n A /\ symmetric n B /\ psd n B /\
    approximates n A (double_centre n (gauss sigma (standardised n x))) (INR n * kappa * (2 / 100)) /\
    approximates n B (double_centre n (gauss sigma (standardised n y))) (INR n * kappa * (2 / 100)) /\
    (rho = 0 <-> forall i j, (i < n)%nat -> (j < n)%nat -> rsum n (fun k => A i k * B k j) = 0).
Proof.
  intros argsort eigh eigsh n x y rho Sa Se Ss H. cbv zeta. destruct (C154_value argsort eigh eigsh n x y rho Sa Se Ss H) as [_ (A & B & SA & PA & SB & PB & QA & QB & C)].
  exists A, B. split; [exact SA|]. split; [exact PA|]. split; [exact SB|]. split; [exact PB|]. split; [exact QA|]. split; [exact QB|].
  destruct n as [|n].
  { exfalso. unfold f_correlation in H. rewrite std_0 in H. cbn [Nat.eqb negb] in H. destruct (Req_EM_T 0 0) as [_|N]; [discriminate|apply N; reflexivity]. }
  change (if (1000 <? S n)%nat then 2 / 1000 else 2 / 100) with (kappa_of (S n)) in C. pose proof (kappa_pos (S n)) as K. assert (N : 0 < INR (S n)) by (apply lt_0_INR; lia).
  assert (T : 0 < INR (S n) * kappa_of (S n) / 2) by (assert (0 < INR (S n) * kappa_of (S n)) by (apply Rmult_lt_0_compat; lra); lra).
  rewrite <- (canonical_zero (S n) _ A B ltac:(lia) T SA PA PB). split; [intros ->; exact C|]. intro C0. exact (canonical_unique _ _ _ _ _ _ C C0).
Qed.
(** The specification determines the value: a number that is the canonical correlation of the same matrices is the same number. *)
Theorem C154_canonical_unique : forall n t A B r1 r2, canonical_correlation n t A B r1 -> canonical_correlation n t A B r2 -> r1 = r2.
Proof. exact canonical_unique. Qed.
Print Assumptions C154_value.
Print Assumptions C154_zero.
Print Assumptions C154_canonical_unique.

(** ** C155: symmetry, change of units, errors *)
Theorem C155_symmetric : forall argsort eigh eigsh n x y r1 r2, argsort_spec argsort -> eigh_spec eigh -> eigsh_spec eigsh ->
  f_correlation argsort eigh eigsh n n x y = Ok r1 -> f_correlation argsort eigh eigsh n n y x = Ok r2 -> r1 = r2.
Proof.
  intros argsort eigh eigsh n x y r1 r2 Sa Se Ss H1 H2. destruct n as [|n].
  { exfalso. unfold f_correlation in H1. rewrite std_0 in H1. cbn [Nat.eqb negb] in H1. destruct (Req_EM_T 0 0) as [_|N]; [discriminate|apply N; reflexivity]. }
  destruct (factor_spec argsort eigh (S n) (standardised (S n) x) Sa Se ltac:(lia)) as (m1 & R1 & U1 & D1 & E1 & F1 & _).
  destruct (factor_spec argsort eigh (S n) (standardised (S n) y) Sa Se ltac:(lia)) as (m2 & R2 & U2 & D2 & E2 & F2 & _).
  destruct (fcorr_core argsort eigh eigsh (S n) m1 R1 U1 D1 m2 R2 U2 D2 x y r1 Ss ltac:(lia) E1 F1 E2 F2 H1) as [_ C1].
  destruct (fcorr_core argsort eigh eigsh (S n) m2 R2 U2 D2 m1 R1 U1 D1 y x r2 Ss ltac:(lia) E2 F2 E1 F1 H2) as [_ C2].
  apply (canonical_unique _ _ _ _ _ _ C1). apply canonical_sym. exact C2.
Qed.
(** Any change of origin and scale of either sample, reversals included, leaves the outcome as it is, whatever the routines. *)
Theorem C155_affine : forall argsort eigh eigsh n x y a b c d, a <> 0 -> c <> 0 ->
  f_correlation argsort eigh eigsh n n (fun i => a * x i + b) (fun i => c * y i + d) = f_correlation argsort eigh eigsh n n x y.
Proof. exact fcorr_affine. Qed.
Theorem C155_errors : forall argsort eigh eigsh nx ny x y,
  (ny <> nx -> f_correlation argsort eigh eigsh nx ny x y = Err ValueError) /\
  ((forall i j, (i < nx)%nat -> (j < nx)%nat -> x i = x j) -> f_correlation argsort eigh eigsh nx ny x y = Err ValueError) /\
  ((forall i j, (i < nx)%nat -> (j < nx)%nat -> y i = y j) -> f_correlation argsort eigh eigsh nx ny x y = Err ValueError).
Proof.
  intros argsort eigh eigsh nx ny x y. assert (S0 : forall z, (forall i j, (i < nx)%nat -> (j < nx)%nat -> z i = z j) -> std nx z = 0).
  { intros z H. destruct nx as [|k]; [apply std_0|]. apply std_zero_iff; [lia|exact H]. }
  unfold f_correlation. split; [|split].
  - intro N. destruct (Nat.eqb_spec ny nx); [contradiction|]. reflexivity.
  - intro C. destruct (ny =? nx)%nat; [|reflexivity]. cbn [negb]. destruct (Req_EM_T (std nx x) 0) as [_|N]; [reflexivity|]. exfalso. apply N, S0, C.
  - intro C. destruct (ny =? nx)%nat; [|reflexivity]. cbn [negb]. destruct (Req_EM_T (std nx x) 0) as [_|_]; [reflexivity|].
    destruct (Req_EM_T (std nx y) 0) as [_|N]; [reflexivity|]. exfalso. apply N, S0, C.
Qed.
(** Two samples of one size that are not constant: the only failure left is one of eigsh itself. *)
Theorem C155_otherwise_eigsh : forall argsort eigh eigsh n x y, argsort_spec argsort -> eigh_spec eigh ->
  (exists i j, (i < n)%nat /\ (j < n)%nat /\ x i <> x j) -> (exists i j, (i < n)%nat /\ (j < n)%nat /\ y i <> y j) ->
  exists size M, symmetric size M /\
    f_correlation argsort eigh eigsh n n x y = match eigsh size M with Ok w => Ok (1 - w) | Err e => Err e end.
Proof.
  intros argsort eigh eigsh n x y Sa Se (i & j & Hi & Hj & Nx) (i' & j' & Hi' & Hj' & Ny). assert (Hn : (0 < n)%nat) by lia.
  destruct (factor_spec argsort eigh n (standardised n x) Sa Se Hn) as (m1 & R1 & U1 & D1 & E1 & _ & _).
  destruct (factor_spec argsort eigh n (standardised n y) Sa Se Hn) as (m2 & R2 & U2 & D2 & E2 & _ & _).
  exists (m1 + m2)%nat, (R_kappa m1 (fun p q => R2 p * rsum n (fun i => U2 i p * U1 i q) * R1 q)). split; [apply rk_sym|].
  unfold f_correlation. rewrite Nat.eqb_refl. cbn [negb].
  destruct (Req_EM_T (std n x) 0) as [Z|_]; [exfalso; apply Nx; apply (proj1 (std_zero_iff n x Hn) Z); assumption|].
  destruct (Req_EM_T (std n y) 0) as [Z|_]; [exfalso; apply Ny; apply (proj1 (std_zero_iff n y Hn) Z); assumption|].
  rewrite E1, E2. reflexivity.
Qed.
Print Assumptions C155_symmetric.
Print Assumptions C155_affine.
Print Assumptions C155_errors.
Print Assumptions C155_otherwise_eigsh.

(** ** The hypotheses can be met *)
(** Routines that meet the three specifications exist. *)
Example C154_routines_exist : argsort_spec the_argsort /\ eigh_spec the_eigh /\ eigsh_spec the_eigsh /\
  (forall n M, (0 < n)%nat -> exists w, the_eigsh n M = Ok w).
Proof. split; [exact the_argsort_spec|]. split; [exact the_eigh_spec|]. split; [exact the_eigsh_spec|exact the_eigsh_returns]. Qed.
Definition xs (i : nat) : R := if Nat.even i then -1 else 1.
Definition ys (i : nat) : R := if (i <? 2)%nat then -1 else 1.
Lemma mean_xs : mean 4 xs = 0. Proof. unfold mean, xs. cbn. field. Qed.
Lemma mean_ys : mean 4 ys = 0. Proof. unfold mean, ys. cbn. field. Qed.
Lemma std_xs : std 4 xs = 1. Proof. unfold std. rewrite mean_xs. rewrite <- sqrt_1. f_equal. unfold mean, xs. cbn. field. Qed.
Lemma std_ys : std 4 ys = 1. Proof. unfold std. rewrite mean_ys. rewrite <- sqrt_1. f_equal. unfold mean, ys. cbn. field. Qed.
Lemma st_xs : forall i, standardised 4 xs i = xs i. Proof. intro i. unfold standardised. rewrite mean_xs, std_xs. field. Qed.
Lemma st_ys : forall i, standardised 4 ys i = ys i. Proof. intro i. unfold standardised. rewrite mean_ys, std_ys. field. Qed.
Lemma exp_m2 : 0 < exp (-2) <= 1 / 3.
Proof.
  split; [apply exp_pos|]. replace (-2) with (- (2)) by ring. rewrite exp_Ropp. assert (3 <= exp 2) by (pose proof (exp_ineq1 2 ltac:(lra)); lra).
  unfold Rdiv. rewrite Rmult_1_l. apply Rinv_le_contravar; lra.
Qed.
Lemma xs_form : 5 <= qform 4 (double_centre 4 (gauss 1 (standardised 4 xs))) xs.
Proof.
  assert (E : qform 4 (double_centre 4 (gauss 1 (standardised 4 xs))) xs = 8 - 8 * exp (-2)).
  { unfold qform, double_centre, avg, gauss. cbn [rsum]. rewrite !st_xs. unfold xs. cbn [Nat.even].
    replace (- (-1 - -1) ^ 2 / (2 * 1 ^ 2)) with 0 by field. replace (- (1 - 1) ^ 2 / (2 * 1 ^ 2)) with 0 by field.
    replace (- (-1 - 1) ^ 2 / (2 * 1 ^ 2)) with (-2) by field. replace (- (1 - -1) ^ 2 / (2 * 1 ^ 2)) with (-2) by field.
    rewrite exp_0. cbn [INR]. field. }
  rewrite E. pose proof exp_m2. lra.
Qed.
Lemma four_ok : forall y, (exists i j, (i < 4)%nat /\ (j < 4)%nat /\ y i <> y j) -> exists rho, f_correlation the_argsort the_eigh the_eigsh 4 4 xs y = Ok rho.
Proof.
  intros y (i & j & Hi & Hj & Ny).
  destruct (factor_spec the_argsort the_eigh 4 (standardised 4 xs) the_argsort_spec the_eigh_spec ltac:(lia)) as (m1 & R1 & U1 & D1 & E1 & F1 & A1).
  destruct (factor_spec the_argsort the_eigh 4 (standardised 4 y) the_argsort_spec the_eigh_spec ltac:(lia)) as (m2 & R2 & U2 & D2 & E2 & F2 & _).
  assert (M : (0 < m1)%nat).
  { destruct m1 as [|m]; [|lia]. exfalso. pose proof xs_form as Q. destruct (A1 xs) as [_ L].
    change (sigma_of 4) with 1 in L. change (kappa_of 4) with (2 / 100) in L. assert (Z : qform 4 (low_gram 0 U1 D1) xs = 0) by (rewrite low_gram_form; reflexivity). rewrite Z in L.
    unfold norm2, xs in L. fold xs in L. cbn [rsum Nat.even INR] in L. change (fun i : nat => if Nat.even i then -1 else 1) with xs in L. lra. }
  unfold f_correlation. rewrite Nat.eqb_refl. cbn [negb]. rewrite std_xs. destruct (Req_EM_T 1 0) as [Z|_]; [lra|].
  destruct (Req_EM_T (std 4 y) 0) as [Z|_]; [exfalso; apply Ny; apply (proj1 (std_zero_iff 4 y ltac:(lia)) Z); assumption|].
  rewrite E1, E2. cbv zeta. destruct (the_eigsh_returns (m1 + m2) (R_kappa m1 (fun p q => R2 p * rsum 4 (fun i => U2 i p * U1 i q) * R1 q)) ltac:(lia)) as [w Ew].
  rewrite Ew. eexists. reflexivity.
Qed.
(** Four samples, the two series independent as samples: a value is returned. *)
Example C154_returns : exists rho, f_correlation the_argsort the_eigh the_eigsh 4 4 xs ys = Ok rho /\ 0 <= rho < 1.
Proof.
  destruct (four_ok ys) as [rho E]; [exists 0%nat, 2%nat; split; [lia|]; split; [lia|]; unfold ys; cbn; lra|].
  exists rho. split; [exact E|]. exact (proj1 (C154_value _ _ _ _ _ _ _ the_argsort_spec the_eigh_spec the_eigsh_spec E)).
Qed.
(** A series with itself: the value is positive. *)
Example C154_dependent_positive : exists rho, f_correlation the_argsort the_eigh the_eigsh 4 4 xs xs = Ok rho /\ 0 < rho < 1.
Proof.
  destruct (four_ok xs) as [rho E]; [exists 0%nat, 1%nat; split; [lia|]; split; [lia|]; unfold xs; cbn; lra|].
  exists rho. split; [exact E|].
  destruct (factor_spec the_argsort the_eigh 4 (standardised 4 xs) the_argsort_spec the_eigh_spec ltac:(lia)) as (m1 & R1 & U1 & D1 & E1 & F1 & A1).
  destruct (fcorr_core _ _ _ 4 m1 R1 U1 D1 m1 R1 U1 D1 xs xs rho the_eigsh_spec ltac:(lia) E1 F1 E1 F1 E) as [B C].
  split; [|apply B]. destruct (proj1 B) as [P|Z]; [exact P|]. exfalso. subst rho.
  change (kappa_of 4) with (2 / 100) in C. set (A := low_gram m1 U1 D1) in *. set (t := INR 4 * (2 / 100) / 2) in *.
  assert (T : 0 < t) by (unfold t; cbn [INR]; lra).
  pose proof (proj1 (canonical_zero 4 t A A ltac:(lia) T (low_gram_sym 4 m1 U1 D1) (low_gram_psd 4 m1 U1 D1 (fa_D _ _ _ _ _ _ F1)) (low_gram_psd 4 m1 U1 D1 (fa_D _ _ _ _ _ _ F1))) C) as Z.
  assert (A0 : forall i k, (i < 4)%nat -> (k < 4)%nat -> A i k = 0).
  { intros i k Hi Hk. specialize (Z i i Hi Hi). destruct (Req_dec (A i k) 0) as [Q|Q]; [exact Q|]. exfalso.
    pose proof (dot_pos 4 (fun k => A i k) k Hk Q) as P. unfold dot in P.
    rewrite (rsum_ext 4 _ (fun k => A i k * A k i)) in P; [lra|]. intros j Hj. f_equal. exact (low_gram_sym 4 m1 U1 D1 i j Hi Hj). }
  destruct (A1 xs) as [_ L]. change (sigma_of 4) with 1 in L. change (kappa_of 4) with (2 / 100) in L. fold A in L.
  assert (ZA : qform 4 A xs = 0) by (unfold qform; apply rsum_0; intros i Hi; apply rsum_0; intros j Hj; rewrite A0 by assumption; ring).
  rewrite ZA in L. pose proof xs_form as Q. assert (NN : norm2 4 xs = 4) by (unfold norm2, xs; cbn; ring). rewrite NN in L. cbn [INR] in L. lra.
Qed.
(** The Cholesky decomposition of the same four samples stops before the fourth column: the gram matrix has two equal pairs of rows. *)
Example C153_hypotheses : exists r G P, incomplete_cholesky 4 xs 1 (1 / 100) = Some (r, G, P) /\ (0 < r)%nat /\ (r <= 2)%nat.
Proof.
  destruct (chol_result 4 xs 1 (1 / 100) ltac:(lra) ltac:(lra)) as (r & G & P & E & Le & Pos & Pp & Low & Piv & Z & _ & _). cbn zeta in Z.
  exists r, G, P. split; [exact E|]. split; [apply Pos; cbn [INR]; lra|].
  destruct (le_lt_dec r 2) as [L|L]; [exact L|]. exfalso.
  (* three of the positions P 0, P 1, P 2 share a value, so two columns among the first three repeat: a zero pivot *)
  assert (D : forall i j, (i < j)%nat -> (j < r)%nat -> xs (P i) <> xs (P j)).
  { intros i j Hij Hj Ex.
    assert (Col : forall k, (k <= i)%nat -> G j k = G i k).
    { assert (IH : forall K, (K <= i)%nat -> forall k, (k <= K)%nat -> G j k = G i k).
      { induction K as [|K IHK]; intros HK k Hk.
        - replace k with 0%nat by lia. pose proof (Z j 0%nat ltac:(lia) ltac:(lia)) as Z1. pose proof (Z i 0%nat ltac:(lia) ltac:(lia)) as Z2.
          assert (Ek : kern xs 1 (P j) (P 0%nat) = kern xs 1 (P i) (P 0%nat)) by (unfold kern; rewrite Ex; reflexivity).
          rewrite Ek in Z1. assert (Q : rsum r (fun k => G j k * G 0%nat k) = rsum r (fun k => G i k * G 0%nat k)) by lra.
          rewrite !(rsum_single r _ 0%nat) in Q by (try lia; intros q Hq Nq; rewrite (Low 0%nat q) by lia; ring).
          apply (Rmult_eq_reg_r (G 0%nat 0%nat)); [exact Q|]. pose proof (Piv 0%nat ltac:(lia)). lra.
        - destruct (Nat.eq_dec k (S K)) as [->|]; [|apply IHK; lia].
          pose proof (Z j (S K) ltac:(lia) ltac:(lia)) as Z1. pose proof (Z i (S K) ltac:(lia) ltac:(lia)) as Z2.
          assert (Ek : kern xs 1 (P j) (P (S K)) = kern xs 1 (P i) (P (S K))) by (unfold kern; rewrite Ex; reflexivity).
          rewrite Ek in Z1. assert (Q : rsum r (fun k => (G j k - G i k) * G (S K) k) = 0).
          { rewrite (rsum_ext r _ (fun k => G j k * G (S K) k + (-1) * (G i k * G (S K) k))) by (intros; ring). rewrite rsum_plus, rsum_scal. lra. }
          rewrite (rsum_single r _ (S K)) in Q.
          + apply Rmult_integral in Q. destruct Q as [Q|Q]; [lra|]. pose proof (Piv (S K) ltac:(lia)). lra.
          + lia.
          + intros q Hq Nq. destruct (le_lt_dec q K) as [LK|LK]; [rewrite (IHK ltac:(lia) q LK); ring|rewrite (Low (S K) q) by lia; ring]. }
      intros k Hk. apply (IH i); lia. }
    pose proof (Z j j ltac:(lia) ltac:(lia)) as Z1. pose proof (Z i j ltac:(lia) ltac:(lia)) as Z2.
    assert (Ek : kern xs 1 (P i) (P j) = 1) by (unfold kern; rewrite Ex, squared_dist_eq; replace (_ * _) with 0 by ring; apply exp_0).
    rewrite kern_diag in Z1. rewrite Ek in Z2. assert (Q : rsum r (fun k => G j k * G j k) = rsum r (fun k => G i k * G j k)) by lra.
    assert (Q' : rsum r (fun k => (G j k - G i k) * G j k) = 0).
    { rewrite (rsum_ext r _ (fun k => G j k * G j k + (-1) * (G i k * G j k))) by (intros; ring). rewrite rsum_plus, rsum_scal. lra. }
    assert (Qk : rsum r (fun k => (G j k - G i k) * G j k) = rsum r (fun k => (G j k - G i k) * (G j k - G i k))).
    { apply rsum_ext. intros k Hk. destruct (le_lt_dec k i) as [LK|LK]; [rewrite (Col k LK); ring|rewrite (Low i k) by lia; ring]. }
    assert (Nz : G j j - G i j <> 0) by (rewrite (Low i j) by lia; pose proof (Piv j ltac:(lia)); lra).
    pose proof (dot_pos r (fun k => G j k - G i k) j Hj Nz) as Pp'. unfold dot in Pp'. rewrite <- Qk, Q' in Pp'. lra. }
  pose proof (D 0%nat 1%nat ltac:(lia) ltac:(lia)) as D01. pose proof (D 0%nat 2%nat ltac:(lia) ltac:(lia)) as D02. pose proof (D 1%nat 2%nat ltac:(lia) ltac:(lia)) as D12.
  unfold xs in D01, D02, D12. destruct (Nat.even (P 0%nat)), (Nat.even (P 1%nat)), (Nat.even (P 2%nat)); congruence.
Qed.
Example C155_different_sizes : f_correlation the_argsort the_eigh the_eigsh 4 3 xs ys = Err ValueError.
Proof. exact (proj1 (C155_errors the_argsort the_eigh the_eigsh 4 3 xs ys) ltac:(lia)). Qed.
Example C155_constant : f_correlation the_argsort the_eigh the_eigsh 4 4 xs (fun _ => 7) = Err ValueError.
Proof. exact (proj2 (proj2 (C155_errors the_argsort the_eigh the_eigsh 4 4 xs (fun _ => 7))) (fun _ _ _ _ => eq_refl)). Qed.
Print Assumptions C154_routines_exist.
