(** * HSIC with the Gaussian kernel, over the real numbers: C150, C151, C152 *)
From Coq Require Import Reals Lra Lia Arith Bool FunctionalExtensionality.
From Verif Require Import LibR SpecKernel ModelKernel ProofKernel ProofHsicR.
Open Scope R_scope.

(** ** C150: the HSIC statistic is a covariance: semidefinite matrices, never negative, Cauchy-Schwarz *)
Theorem C150_gram_matrices_semidefinite : forall n m X width, (0 < n)%nat -> width <> 0 ->
  psd n (fst (get_gram_matrix n m X width)) /\ psd n (snd (get_gram_matrix n m X width)).
Proof.
  intros n m X w Hn Hw. cbn [get_gram_matrix fst snd]. split; [apply rbf_psd; exact Hw|].
  apply centre_psd; [exact Hn|apply rbf_symm|apply rbf_psd; exact Hw].
Qed.
Print Assumptions C150_gram_matrices_semidefinite.

Theorem C150_statistic_nonnegative : forall n m1 m2 X Y width_x width_y, (0 < n)%nat -> width_x <> 0 -> width_y <> 0 ->
  0 <= hsic_teststat (snd (get_gram_matrix n m1 X width_x)) (snd (get_gram_matrix n m2 Y width_y)) n.
Proof. intros. cbn [get_gram_matrix snd]. apply stat_nonneg; assumption. Qed.
Print Assumptions C150_statistic_nonnegative.

Theorem C150_statistic_bounded_by_self_statistics : forall n m1 m2 X Y width_x width_y, (0 < n)%nat ->
  let Kc := snd (get_gram_matrix n m1 X width_x) in let Lc := snd (get_gram_matrix n m2 Y width_y) in
  hsic_teststat Kc Lc n * hsic_teststat Kc Lc n <= hsic_teststat Kc Kc n * hsic_teststat Lc Lc n.
Proof.
  intros n m1 m2 X Y wx wy Hn Kc Lc.
  assert (SK : sym n Kc) by (apply centre_sym, rbf_symm). assert (SL : sym n Lc) by (apply centre_sym, rbf_symm).
  assert (E : forall A B : rmat, sym n A -> hsic_teststat A B n = 1 / INR n * rsum n (fun i => rsum n (fun j => A i j * B i j))).
  { intros A B SA. unfold hsic_teststat. f_equal. apply rsum_ext. intros i Hi. apply rsum_ext. intros j Hj. rewrite (SA j i) by assumption. reflexivity. }
  rewrite !E by assumption. pose proof (cs_matrix n Kc Lc) as C. cbn zeta in C.
  set (ab := rsum n (fun i => rsum n (fun j => Kc i j * Lc i j))) in *.
  set (aa := rsum n (fun i => rsum n (fun j => Kc i j * Kc i j))) in *.
  set (bb := rsum n (fun i => rsum n (fun j => Lc i j * Lc i j))) in *.
  assert (P : 0 <= 1 / INR n * (1 / INR n)) by apply Rle_0_sqr.
  replace (1 / INR n * ab * (1 / INR n * ab)) with (1 / INR n * (1 / INR n) * (ab * ab)) by ring.
  replace (1 / INR n * aa * (1 / INR n * bb)) with (1 / INR n * (1 / INR n) * (aa * bb)) by ring.
  apply Rmult_le_compat_l; assumption.
Qed.
Print Assumptions C150_statistic_bounded_by_self_statistics.

(** ** C151: the statistic is zero exactly if the two samples are independent as samples *)
Lemma independent_cnt : forall n m1 m2 X Y, empirically_independent n m1 m2 X Y <->
  (forall a b, (a < n)%nat -> (b < n)%nat -> INR n * cnt n (fun i => row_eq m1 (X i) (X a) && row_eq m2 (Y i) (Y b)) =
     cnt n (fun i => row_eq m1 (X i) (X a)) * cnt n (fun i => row_eq m2 (Y i) (Y b))).
Proof.
  intros n m1 m2 X Y. split.
  - intros H a b Ha Hb. apply (H (fun i => row_eq m1 (X i) (X a)) (fun i => row_eq m2 (Y i) (Y b)) a b Ha Hb); intros; apply row_eq_spec.
  - intros H px py a b Ha Hb Hx Hy.
    assert (Ex : forall i, (i < n)%nat -> px i = row_eq m1 (X i) (X a)).
    { intros i Hi. apply eq_true_iff_eq. rewrite row_eq_spec. apply Hx; exact Hi. }
    assert (Ey : forall i, (i < n)%nat -> py i = row_eq m2 (Y i) (Y b)).
    { intros i Hi. apply eq_true_iff_eq. rewrite row_eq_spec. apply Hy; exact Hi. }
    unfold count_rows. pose proof (H a b Ha Hb) as G. unfold cnt in G.
    rewrite (rsum_ext n _ (fun i => if row_eq m1 (X i) (X a) && row_eq m2 (Y i) (Y b) then 1 else 0)) by (intros i Hi; rewrite Ex, Ey by exact Hi; reflexivity).
    rewrite (rsum_ext n (fun i => if px i then 1 else 0) (fun i => if row_eq m1 (X i) (X a) then 1 else 0)) by (intros i Hi; rewrite Ex by exact Hi; reflexivity).
    rewrite (rsum_ext n (fun i => if py i then 1 else 0) (fun i => if row_eq m2 (Y i) (Y b) then 1 else 0)) by (intros i Hi; rewrite Ey by exact Hi; reflexivity).
    exact G.
Qed.
Theorem C151_statistic_zero_iff_independent : forall n m1 m2 X Y width_x width_y, (0 < n)%nat -> width_x <> 0 -> width_y <> 0 ->
  (hsic_teststat (snd (get_gram_matrix n m1 X width_x)) (snd (get_gram_matrix n m2 Y width_y)) n = 0 <->
   empirically_independent n m1 m2 X Y).
Proof.
  intros n m1 m2 X Y wx wy Hn Hx Hy. cbn [get_gram_matrix snd]. rewrite independent_cnt. split.
  - intros Z a b _ _. apply (zero_counts n m1 m2 X Y wx wy Hn Hx Hy Z).
  - intro H. apply independent_zero; assumption.
Qed.
Print Assumptions C151_statistic_zero_iff_independent.

(** If no two samples agree on X (continuous data), the statistic is zero only for constant Y. *)
Theorem C151_continuous_zero_iff_constant : forall n m1 m2 X Y width_x width_y, (0 < n)%nat -> width_x <> 0 -> width_y <> 0 ->
  (forall i j, (i < n)%nat -> (j < n)%nat -> same_row m1 (X i) (X j) -> i = j) ->
  (hsic_teststat (snd (get_gram_matrix n m1 X width_x)) (snd (get_gram_matrix n m2 Y width_y)) n = 0 <->
   forall i j, (i < n)%nat -> (j < n)%nat -> same_row m2 (Y i) (Y j)).
Proof.
  intros n m1 m2 X Y wx wy Hn Hx Hy D. rewrite C151_statistic_zero_iff_independent by assumption. rewrite independent_cnt.
  assert (U : forall (q : nat -> bool) a, (a < n)%nat -> cnt n (fun i => row_eq m1 (X i) (X a) && q i) = if q a then 1 else 0).
  { intros q a Ha. unfold cnt. rewrite (rsum_single n _ a Ha).
    - rewrite row_eq_refl. reflexivity.
    - intros i Hi Ne. destruct (row_eq m1 (X i) (X a)) eqn:E; [|reflexivity]. exfalso. apply Ne. apply D; try assumption. apply row_eq_spec. exact E. }
  assert (U1 : forall a, (a < n)%nat -> cnt n (fun i => row_eq m1 (X i) (X a)) = 1).
  { intros a Ha. rewrite <- (U (fun _ => true) a Ha). unfold cnt. apply rsum_ext. intros. rewrite andb_true_r. reflexivity. }
  split.
  - intros H i j Hi Hj. pose proof (H i j Hi Hj) as G. rewrite U, U1 in G by exact Hi.
    pose proof (cnt_pos n (fun i => row_eq m2 (Y i) (Y j)) j Hj (row_eq_refl _ _)) as P.
    destruct (row_eq m2 (Y i) (Y j)) eqn:E; [apply row_eq_spec; exact E|]. lra.
  - intros H a b Ha Hb. rewrite U, U1 by exact Ha.
    assert (E : forall i, (i < n)%nat -> row_eq m2 (Y i) (Y b) = true) by (intros i Hi; apply row_eq_spec, H; assumption).
    rewrite E by exact Ha. unfold cnt. rewrite (rsum_ext n _ (fun _ => 1)) by (intros i Hi; rewrite E by exact Hi; reflexivity).
    rewrite rsum_const. ring.
Qed.
Print Assumptions C151_continuous_zero_iff_constant.

(** Which samples the statistic cannot tell from independent ones does not depend on the widths. *)
Theorem C151_widths_do_not_matter : forall n m1 m2 X Y wx wy wx' wy', (0 < n)%nat -> wx <> 0 -> wy <> 0 -> wx' <> 0 -> wy' <> 0 ->
  0 < hsic_teststat (snd (get_gram_matrix n m1 X wx)) (snd (get_gram_matrix n m2 Y wy)) n ->
  0 < hsic_teststat (snd (get_gram_matrix n m1 X wx')) (snd (get_gram_matrix n m2 Y wy')) n.
Proof.
  intros n m1 m2 X Y wx wy wx' wy' Hn Hx Hy Hx' Hy' P.
  destruct (C150_statistic_nonnegative n m1 m2 X Y wx' wy' Hn Hx' Hy') as [G|G]; [exact G|]. exfalso.
  symmetry in G. apply C151_statistic_zero_iff_independent in G; try assumption.
  apply (C151_statistic_zero_iff_independent n m1 m2 X Y wx wy Hn Hx Hy) in G. lra.
Qed.
Print Assumptions C151_widths_do_not_matter.

(** ** C152: the moments used for the gamma approximation *)
Lemma off_mean_bounds : forall n m X w, (2 <= n)%nat -> w <> 0 -> 0 < off_mean n (rbf_dot m X w) <= 1.
Proof.
  intros n m X w Hn Hw. assert (N : 2 <= INR n) by (apply (le_INR 2) in Hn; cbn in Hn; lra).
  unfold off_mean. set (s := rsum n _).
  assert (S1 : s <= INR n * (INR n - 1)).
  { unfold s. rewrite <- rsum_const. apply rsum_le. intros i Hi.
    apply Rle_trans with (rsum n (fun j => 1 - if Nat.eqb i j then 1 else 0)).
    - apply rsum_le. intros j _. destruct (Nat.eqb i j); [lra|]. pose proof (rbf_le1 m X w i j Hw). lra.
    - rewrite rsum_minus, rsum_const. rewrite (rsum_single n (fun j => if Nat.eqb i j then 1 else 0) i Hi), Nat.eqb_refl; [lra|].
      intros j _ Ne. destruct (Nat.eqb_spec i j); [congruence|reflexivity]. }
  assert (S0 : 0 < s).
  { assert (NN : forall i j, 0 <= if Nat.eqb i j then 0 else rbf_dot m X w i j).
    { intros i j. destruct (Nat.eqb i j); [lra|]. pose proof (rbf_le1 m X w i j Hw). lra. }
    eapply Rlt_le_trans; [|apply (rsum_ge_one n _ 0%nat ltac:(lia)); intros i _; apply rsum_nonneg; intros; apply NN].
    eapply Rlt_le_trans; [|apply (rsum_ge_one n _ 1%nat ltac:(lia)); intros j _; apply NN]. cbn beta. apply (rbf_le1 m X w 0 1 Hw). }
  assert (D : 0 < / INR n * / (INR n - 1)) by (apply Rmult_lt_0_compat; apply Rinv_0_lt_compat; lra).
  replace (1 / INR n / (INR n - 1) * s) with (/ INR n * / (INR n - 1) * s) by (unfold Rdiv; ring). split; [apply Rmult_lt_0_compat; assumption|].
  apply Rle_trans with (/ INR n * / (INR n - 1) * (INR n * (INR n - 1))); [apply Rmult_le_compat_l; lra|]. apply Req_le. field. lra.
Qed.
Lemma off_mean_one : forall n m X w, (2 <= n)%nat -> w <> 0 -> off_mean n (rbf_dot m X w) = 1 <->
  (forall i j, (i < n)%nat -> (j < n)%nat -> same_row m (X i) (X j)).
Proof.
  intros n m X w Hn Hw. assert (N : 2 <= INR n) by (apply (le_INR 2) in Hn; cbn in Hn; lra).
  assert (T : rsum n (fun i => rsum n (fun j => if Nat.eqb i j then 0 else 1)) = INR n * (INR n - 1)).
  { rewrite <- rsum_const. apply rsum_ext. intros i Hi. rewrite (rsum_ext n _ (fun j => 1 - if Nat.eqb i j then 1 else 0)) by (intros j _; destruct (Nat.eqb i j); lra).
    rewrite rsum_minus, rsum_const, (rsum_single n (fun j => if Nat.eqb i j then 1 else 0) i Hi), Nat.eqb_refl; [lra|].
    intros j _ Ne. destruct (Nat.eqb_spec i j); [congruence|reflexivity]. }
  unfold off_mean. set (s := rsum n _).
  assert (NN : forall i j, 0 <= (if Nat.eqb i j then 0 else 1) - (if Nat.eqb i j then 0 else rbf_dot m X w i j)).
  { intros i j. destruct (Nat.eqb i j); [lra|]. pose proof (rbf_le1 m X w i j Hw). lra. }
  assert (E : INR n * (INR n - 1) - s = rsum n (fun i => rsum n (fun j => (if Nat.eqb i j then 0 else 1) - (if Nat.eqb i j then 0 else rbf_dot m X w i j)))).
  { rewrite <- T. unfold s. rewrite <- rsum_minus. apply rsum_ext. intros. symmetry. apply rsum_minus. }
  split.
  - intros H i j Hi Hj.
    assert (Z : INR n * (INR n - 1) - s = 0).
    { replace s with (INR n * (INR n - 1) * (1 / INR n / (INR n - 1) * s)) by (field; lra). rewrite H. ring. }
    rewrite E in Z. pose proof (rsum_zero_all n _ (fun i _ => rsum_nonneg n _ (fun j _ => NN i j)) Z i Hi) as Z1. cbn beta in Z1.
    pose proof (rsum_zero_all n _ (fun j _ => NN i j) Z1 j Hj) as Z2. cbn beta in Z2.
    destruct (Nat.eqb_spec i j) as [->|]; [intros k _; reflexivity|]. apply (rbf_one m X w); [exact Hw|lra].
  - intro H. assert (Es : s = INR n * (INR n - 1)).
    { rewrite <- T. apply rsum_ext. intros i Hi. apply rsum_ext. intros j Hj. destruct (Nat.eqb i j); [reflexivity|].
      rewrite (rbf_row m X w i j j) by (apply row_eq_spec, H; assumption). apply rbf_diag. }
    rewrite Es. field. lra.
Qed.

(** Two or more samples: the mean under the null hypothesis is never negative and at most 1/n; it is zero exactly if one of the
    two samples is constant.  Hence the shape and scale of the gamma distribution are not determined for constant samples. *)
Theorem C152_null_mean : forall n m1 m2 X Y width_x width_y, (2 <= n)%nat -> width_x <> 0 -> width_y <> 0 ->
  let mean := null_mean n (fst (get_gram_matrix n m1 X width_x)) (fst (get_gram_matrix n m2 Y width_y)) in
  0 <= mean < 1 / INR n /\
  (mean = 0 <-> (forall i j, (i < n)%nat -> (j < n)%nat -> same_row m1 (X i) (X j)) \/ (forall i j, (i < n)%nat -> (j < n)%nat -> same_row m2 (Y i) (Y j))).
Proof.
  intros n m1 m2 X Y wx wy Hn Hx Hy mean. unfold mean. cbn [get_gram_matrix fst]. assert (N : 2 <= INR n) by (apply (le_INR 2) in Hn; cbn in Hn; lra).
  rewrite <- (off_mean_one n m1 X wx Hn Hx), <- (off_mean_one n m2 Y wy Hn Hy).
  pose proof (off_mean_bounds n m1 X wx Hn Hx) as BX. pose proof (off_mean_bounds n m2 Y wy Hn Hy) as BY.
  unfold null_mean. set (a := off_mean n (rbf_dot m1 X wx)) in *. set (b := off_mean n (rbf_dot m2 Y wy)) in *. clearbody a b.
  replace (1 + a * b - a - b) with ((1 - a) * (1 - b)) by ring. assert (D : 0 < 1 / INR n) by (unfold Rdiv; rewrite Rmult_1_l; apply Rinv_0_lt_compat; lra).
  split; [split|].
  - apply Rmult_le_pos; [lra|]. apply Rmult_le_pos; lra.
  - rewrite <- (Rmult_1_r (1 / INR n)) at 2. apply Rmult_lt_compat_l; [exact D|].
    apply Rle_lt_trans with ((1 - a) * 1); [apply Rmult_le_compat_l; lra|lra].
  - split.
    + intro Z. apply Rmult_integral in Z. destruct Z as [Z|Z]; [lra|]. apply Rmult_integral in Z. destruct Z; [left|right]; lra.
    + intros [->| ->]; ring.
Qed.
Print Assumptions C152_null_mean.

(** The variance under the null hypothesis: never negative for four or more samples, zero whatever the data for four and five samples. *)
Lemma var_nonneg : forall n (A B : rmat), 0 <= rsum n (fun i => rsum n (fun j => (1 / 6 * A i j * B i j) ^ 2)) - rsum n (fun i => (1 / 6 * A i i * B i i) ^ 2).
Proof.
  intros n A B. rewrite <- rsum_minus. apply rsum_nonneg. intros i Hi.
  pose proof (rsum_ge_one n (fun j => (1 / 6 * A i j * B i j) ^ 2) i Hi (fun j _ => pow2_ge_0 _)) as H. cbn beta in H. lra.
Qed.
Theorem C152_null_variance : forall n m1 m2 X Y width_x width_y,
  let var := null_var n (snd (get_gram_matrix n m1 X width_x)) (snd (get_gram_matrix n m2 Y width_y)) in
  ((4 <= n)%nat -> 0 <= var) /\ (n = 4%nat \/ n = 5%nat -> var = 0) /\
  ((6 <= n)%nat -> (var = 0 <-> forall i j, (i < n)%nat -> (j < n)%nat -> i <> j ->
      snd (get_gram_matrix n m1 X width_x) i j * snd (get_gram_matrix n m2 Y width_y) i j = 0)).
Proof.
  intros n m1 m2 X Y wx wy var. unfold var. set (A := snd (get_gram_matrix n m1 X wx)). set (B := snd (get_gram_matrix n m2 Y wy)). clearbody A B.
  unfold null_var. pose proof (var_nonneg n A B) as V. set (v := rsum n _ - rsum n _) in *.
  assert (F : n = 4%nat \/ n = 5%nat -> 72 * (INR n - 4) * (INR n - 5) / INR n / (INR n - 1) / (INR n - 2) / (INR n - 3) * (1 / INR n / (INR n - 1) * v) = 0).
  { intros [-> | ->]; [replace (INR 4 - 4) with 0 by (cbn; ring)|replace (INR 5 - 5) with 0 by (cbn; ring)]; unfold Rdiv; ring. }
  assert (G : (6 <= n)%nat -> 0 < 72 * (INR n - 4) * (INR n - 5) / INR n / (INR n - 1) / (INR n - 2) / (INR n - 3) * (1 / INR n / (INR n - 1))).
  { intro H. apply (le_INR 6) in H. cbn in H. unfold Rdiv. rewrite Rmult_1_l.
    repeat apply Rmult_lt_0_compat; try (apply Rinv_0_lt_compat); lra. }
  split; [|split; [exact F|]].
  - intro H. destruct (Nat.eq_dec n 4) as [E|E4]; [rewrite F by tauto; lra|]. destruct (Nat.eq_dec n 5) as [E|E5]; [rewrite F by tauto; lra|].
    rewrite <- Rmult_assoc. apply Rmult_le_pos; [apply Rlt_le, G; lia|exact V].
  - intro H. rewrite <- Rmult_assoc. specialize (G H).
    assert (Ev : v = rsum n (fun i => rsum n (fun j => if Nat.eqb i j then 0 else (1 / 6 * A i j * B i j) ^ 2))).
    { unfold v. rewrite <- rsum_minus. apply rsum_ext. intros i Hi.
      transitivity (rsum n (fun j => (1 / 6 * A i j * B i j) ^ 2) - rsum n (fun j => if Nat.eqb i j then (1 / 6 * A i j * B i j) ^ 2 else 0)).
      - rewrite (rsum_single n (fun j => if Nat.eqb i j then _ else 0) i Hi), Nat.eqb_refl; [reflexivity|].
        intros j _ Ne. destruct (Nat.eqb_spec i j); [congruence|reflexivity].
      - rewrite <- rsum_minus. apply rsum_ext. intros j _. destruct (Nat.eqb i j); ring. }
    assert (NN : forall i j, 0 <= if Nat.eqb i j then 0 else (1 / 6 * A i j * B i j) ^ 2).
    { intros i j. destruct (Nat.eqb i j); [lra|apply pow2_ge_0]. }
    split.
    + intros Z i j Hi Hj Ne. apply Rmult_integral in Z. destruct Z as [Z|Z]; [lra|]. rewrite Ev in Z.
      pose proof (rsum_zero_all n _ (fun i _ => rsum_nonneg n _ (fun j _ => NN i j)) Z i Hi) as Z1. cbn beta in Z1.
      pose proof (rsum_zero_all n _ (fun j _ => NN i j) Z1 j Hj) as Z2. cbn beta in Z2.
      destruct (Nat.eqb_spec i j); [contradiction|]. cbn [pow] in Z2. rewrite Rmult_1_r in Z2. apply Rsqr_0_uniq in Z2.
      replace (A i j * B i j) with (6 * (1 / 6 * A i j * B i j)) by field. rewrite Z2. ring.
    + intro Z. rewrite Ev, rsum_0; [ring|]. intros i Hi. apply rsum_0. intros j Hj. destruct (Nat.eqb_spec i j); [reflexivity|].
      replace (1 / 6 * A i j * B i j) with (1 / 6 * (A i j * B i j)) by ring. rewrite Z by assumption. ring.
Qed.
Print Assumptions C152_null_variance.

(** ** Non-trivial cases *)
(** Four samples forming a 2 x 2 table: independent as samples, the statistic is zero. *)
Definition x4 : rmat := fun i _ => if (i <? 2)%nat then 0 else 1.
Definition y4 : rmat := fun i _ => if Nat.even i then 3 else 5.
Example product_table_zero : hsic_teststat (snd (get_gram_matrix 4 1 x4 (1 / 2))) (snd (get_gram_matrix 4 1 y4 2)) 4 = 0.
Proof.
  apply C151_statistic_zero_iff_independent; [lia|lra|lra|]. apply independent_cnt.
  assert (RX : forall i j, row_eq 1 (x4 i) (x4 j) = Bool.eqb (i <? 2)%nat (j <? 2)%nat).
  { intros i j. apply eq_true_iff_eq. rewrite row_eq_spec, Bool.eqb_true_iff. unfold same_row, x4. split.
    - intro H. specialize (H 0%nat ltac:(lia)). destruct (i <? 2)%nat, (j <? 2)%nat; try reflexivity; lra.
    - intros -> k _. reflexivity. }
  assert (RY : forall i j, row_eq 1 (y4 i) (y4 j) = Bool.eqb (Nat.even i) (Nat.even j)).
  { intros i j. apply eq_true_iff_eq. rewrite row_eq_spec, Bool.eqb_true_iff. unfold same_row, y4. split.
    - intro H. specialize (H 0%nat ltac:(lia)). destruct (Nat.even i), (Nat.even j); try reflexivity; lra.
    - intros -> k _. reflexivity. }
  intros a b Ha Hb. unfold cnt. cbn [rsum]. rewrite !RX, !RY.
  destruct a as [|[|[|[|a] ] ] ]; [| | | |lia]; (destruct b as [|[|[|[|b] ] ] ]; [| | | |lia]); cbn; ring.
Qed.
(** Three different values against themselves: dependent, the statistic is positive. *)
Definition x3 : rmat := fun i _ => INR i.
Example C150_example : 0 < hsic_teststat (snd (get_gram_matrix 3 1 x3 1)) (snd (get_gram_matrix 3 1 x3 1)) 3.
Proof.
  destruct (C150_statistic_nonnegative 3 1 1 x3 x3 1 1 ltac:(lia) ltac:(lra) ltac:(lra)) as [H|H]; [exact H|]. exfalso. symmetry in H.
  apply (proj1 (C151_continuous_zero_iff_constant 3 1 1 x3 x3 1 1 ltac:(lia) ltac:(lra) ltac:(lra)
     ltac:(intros i j _ _ S; apply INR_eq; exact (S 0%nat ltac:(lia))))) with (i := 0%nat) (j := 1%nat) in H; [|lia|lia].
  specialize (H 0%nat ltac:(lia)). unfold x3 in H. cbn in H. lra.
Qed.
(** Their mean under the null hypothesis is positive, and would be zero against a constant sample. *)
Example C152_example : 0 < null_mean 3 (fst (get_gram_matrix 3 1 x3 1)) (fst (get_gram_matrix 3 1 x3 1)).
Proof.
  destruct (C152_null_mean 3 1 1 x3 x3 1 1 ltac:(lia) ltac:(lra) ltac:(lra)) as [ [ [H|H] _] E]; [exact H|]. exfalso.
  symmetry in H. apply E in H. destruct H as [H|H]; specialize (H 0%nat 1%nat ltac:(lia) ltac:(lia) 0%nat ltac:(lia)); unfold x3 in H; cbn in H; lra.
Qed.
Example C152_example_constant : null_mean 3 (fst (get_gram_matrix 3 1 x3 1)) (fst (get_gram_matrix 3 1 (fun _ _ => 7) 1)) = 0.
Proof. apply (C152_null_mean 3 1 1 x3 (fun _ _ => 7) 1 1); [lia|lra|lra|]. right. intros i j _ _ k _. reflexivity. Qed.

