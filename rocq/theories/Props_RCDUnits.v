(** * Properties of RCD: units, origins and the order of the rows (C174) *)
From Coq Require Import List Arith Bool ZArith QArith Qcanon Lia Permutation.
From Verif Require Import Prelude Spec SpecPop SpecRCDPop SpecUnits Lib LibMat ProofPop ModelRCD ModelRCDPop OlsGS ProofUnits ProofRCDUnits Props_RCDPop.
Import ListNotations.
Open Scope nat_scope.

(** C174.  With tests that do not depend on units, origins and the order of the rows (Shapiro-Wilk, Pearson, HSIC and the
    F-correlation do not: C91, C92, C154), RCD finds the same ancestors and the same pairs with a common hidden cause in
    all units and for all orders of the rows, and if no column is an affine function of the others, every coefficient is
    multiplied by the unit of the effect and divided by that of the cause.  With MLHSICR its minimiser is assumed to
    change like this, too. *)
Theorem C174_rcd_units :
  forall N n s a X X' ols icpt shapiro corr ind mlcoef maxl mlhsicr M B,
  0 < N -> rearranges N s -> same_data N s a X X' -> solves_least_squares N ols ->
  invariant1 N shapiro -> invariant2 N corr -> invariant2 N ind ->
  (mlhsicr = false \/ forall Y Y' i ps p, same_data N s a Y Y' -> mlcoef Y' i ps p = (a i * mlcoef Y i ps p / a p)%Qc) ->
  rcd_data_fit ols icpt shapiro corr ind mlcoef X n maxl mlhsicr = Ok (M, B) ->
  exists B', rcd_data_fit ols icpt shapiro corr ind mlcoef X' n maxl mlhsicr = Ok (M, B') /\
    (forall i j, B i j = None <-> B' i j = None) /\
    (independent_columns N n X -> forall i j b, j < n -> B i j = Some b -> B' i j = Some (a i * b / a j)%Qc).
Proof.
  intros N n s a X X' ols icpt shapiro corr ind mlcoef maxl ml M B HN HS SD OLS SH CO IN ML F. unfold rcd_data_fit in *.
  assert (RG : forall H, NoDup H -> same_data N s a (resid_given ols icpt X H) (resid_given ols icpt X' H)) by (intros; apply resid_given_units; assumption).
  assert (T2 : forall A t, invariant2 (A := A) N t -> forall i j x x' y y', (exists b, in_unit N s (a i) b x x') -> (exists b, in_unit N s (a j) b y y') -> t x y = t x' y').
  { intros A t T i j x x' y y' (b & I) (b' & I'). symmetry. apply (T s (a i) b x x' (a j) b' y y' HS); [apply SD|apply SD|exact I|exact I']. }
  destruct (fit_same n maxl ml
    (d_nongauss ols icpt shapiro X) (d_nongauss ols icpt shapiro X') (d_corr ols icpt corr X) (d_corr ols icpt corr X')
    (d_ols ols icpt ind X) (d_ols ols icpt ind X') (d_ml ols icpt ind mlcoef X) (d_ml ols icpt ind mlcoef X') (d_cor2 ols icpt corr X) (d_cor2 ols icpt corr X')) with
    (coef := fun i ps j => ols X ps (X i) j) (coef' := fun i ps j => ols X' ps (X' i) j) (M := M) (B := B) as (B' & F' & EB).
  - intros H j ND. unfold d_nongauss. destruct (RG H ND j) as (Na & b & I). symmetry. exact (SH s (a j) b _ _ HS Na I).
  - intros H i j ND. unfold d_corr. apply (T2 _ corr CO i j); apply (RG H ND).
  - intros H i xs j ND NX. unfold d_ols. apply (T2 _ ind IN i j); [|apply (RG H ND)]. apply (ols_resid_units N s a ols icpt HN HS OLS); [apply RG; exact ND|exact NX].
  - destruct ML as [E|ML]; [left; exact E|right]. intros H i xs j ND NX. unfold d_ml. apply (T2 _ ind IN i j); [|apply (RG H ND)].
    apply (ml_resid_units N s a); [apply RG; exact ND|]. intros p _. apply ML. apply RG. exact ND.
  - intros i H j H' ND ND'. unfold d_cor2. apply (T2 _ corr CO i j); [apply (RG H ND)|apply (RG H' ND')].
  - exact F.
  - exists B'. split; [exact F'|]. split.
    + intros i j. destruct (EB i j) as [(E & _)|(ps & _ & _ & _ & E & E')]; [rewrite E; tauto|rewrite E, E'; split; discriminate].
    + intros IC i j b Hj E. destruct (EB i j) as [(E1 & Z)|(ps & ND & RP & J & E1 & E2)].
      * destruct Z as [Z|Z]; [congruence|]. rewrite <- E1, E. rewrite Z in E. injection E as <-. f_equal. unfold Qcdiv. ring.
      * rewrite E2. rewrite E in E1. injection E1 as ->. f_equal.
        apply (coefficients_units N n s a X X' i ps (ols X ps (X i)) (ols X' ps (X' i)) HN HS SD IC ND RP (OLS X ps (X i) ND) (OLS X' ps (X' i) ND) j (J Hj)).
Qed.
Print Assumptions C174_rcd_units.

(** Tests with this invariance that tell dependent from independent variables: covariances of the variables and of their squared deviations. *)
Definition sqdev (N : nat) (y : sample) : sample := let m := mean N y in tab N (fun r => (y r - m) * (y r - m))%Qc.
Definition cov_test (N : nat) (y z : sample) : bool := negb (qeqb (cov N y z) 0).
Definition square_test (N : nat) (y z : sample) : bool := qeqb (cov N y z) 0 && qeqb (cov N (sqdev N y) (sqdev N z)) 0.
Lemma qeqb_scaled : forall k x, k <> 0%Qc -> qeqb (k * x) 0 = qeqb x 0.
Proof.
  intros k x Hk. destruct (qeqb x 0) eqn:E.
  - apply qeqb_eq in E. rewrite E. apply qeqb_eq. ring.
  - apply qeqb_neq in E. apply qeqb_neq. intro Z. apply Qcmult_integral in Z. tauto.
Qed.
Lemma sqdev_in_unit : forall N s a b x y, 0 < N -> rearranges N s -> in_unit N s a b x y -> in_unit N s (a * a) 0 (sqdev N x) (sqdev N y).
Proof.
  intros N s a b x y HN HS H r Hr. unfold sqdev. rewrite !tab_eq by (try exact Hr; apply (rearranges_range N s r HS Hr)). 
  assert (M : mean N y = (a * mean N x + b)%Qc).
  { unfold mean. rewrite (sumn_ext N y (fun r => a * x (s r) + b * 1)%Qc) by (intros q Hq; rewrite (H q Hq); ring).
    rewrite sumn_plus, !sumn_scal, (rearranges_sum N s x HS), ProofLim.sumn_one. field. apply qn_nonzero. exact HN. }
  rewrite M, (H r Hr). ring.
Qed.
Lemma cov_test_invariant : forall N, 0 < N -> invariant2 N (cov_test N).
Proof.
  intros N HN s a b x y a' b' x' y' HS Ha Ha' I I'. unfold cov_test. rewrite (cov_in_unit N s a b a' b' x y x' y' HN HS I I'), qeqb_scaled; [reflexivity|].
  intro Z. apply Qcmult_integral in Z. tauto.
Qed.
Lemma square_test_invariant : forall N, 0 < N -> invariant2 N (square_test N).
Proof.
  intros N HN s a b x y a' b' x' y' HS Ha Ha' I I'. unfold square_test.
  rewrite (cov_in_unit N s a b a' b' x y x' y' HN HS I I'), qeqb_scaled by (intro Z; apply Qcmult_integral in Z; tauto).
  rewrite (cov_in_unit N s (a * a) 0 (a' * a') 0 (sqdev N x) (sqdev N y) (sqdev N x') (sqdev N y') HN HS (sqdev_in_unit N s a b x y HN HS I) (sqdev_in_unit N s a' b' x' y' HN HS I')).
  rewrite qeqb_scaled; [reflexivity|]. intro Z. repeat (apply Qcmult_integral in Z; destruct Z as [Z|Z]); tauto.
Qed.
(** Three variables with x1 = x0 + e1, x2 = x0 + e2, and the same in other units, signs and origins, rows reversed. *)
Definition ux (i : nat) : sample := tab 8 (fun r => match i with 0 => had 0 r | 1 => had 0 r + had 1 r | _ => had 0 r + had 2 r end)%Qc.
Definition ua (i : nat) : Qc := match i with 0 => qz (-1) | 1 => qz 1000 | _ => qf 9 5 end.
Definition ux' (i : nat) : sample := tab 8 (fun r => ua i * ux i (7 - r)%nat + qz 32)%Qc.
Example C174_example :
  rearranges 8 (fun r => 7 - r) /\ same_data 8 (fun r => 7 - r) ua ux ux' /\ solves_least_squares 8 (gs 8) /\ invariant1 8 (fun _ => true) /\ invariant2 8 (cov_test 8) /\ invariant2 8 (square_test 8).
Proof.
  split; [unfold rearranges; exact (Permutation_sym (Permutation_rev [0; 1; 2; 3; 4; 5; 6; 7]))|].
  split; [intro i; split; [destruct i as [|[|i]]; intro Z; apply (f_equal this) in Z; vm_compute in Z; discriminate Z|]; exists (qz 32); intros r Hr; unfold ux'; rewrite tab_eq by exact Hr; reflexivity|].
  split; [apply gs_solves; lia|]. split; [intros s a b x y _ _ _; reflexivity|]. split; [apply cov_test_invariant; lia|apply square_test_invariant; lia].
Qed.
Example C174_example_fits :
  let fit x := rcd_data_fit (gs 8) (fun _ _ _ => 0%Qc) (fun _ => true) (cov_test 8) (square_test 8) (fun _ _ _ _ => 0%Qc) x 3 2 false in
  show_sets 3 (fit ux) = [[]; [0]; [0]] /\ show_sets 3 (fit ux') = [[]; [0]; [0]] /\ show_adj 3 (fit ux) = [[Some 0%Q; Some 0%Q; Some 0%Q]; [Some 1%Q; Some 0%Q; Some 0%Q]; [Some 1%Q; Some 0%Q; Some 0%Q]] /\ show_adj 3 (fit ux') = [[Some 0%Q; Some 0%Q; Some 0%Q]; [Some (-1000 # 1)%Q; Some 0%Q; Some 0%Q]; [Some (-9 # 5)%Q; Some 0%Q; Some 0%Q]].
Proof. vm_compute. auto. Qed.
