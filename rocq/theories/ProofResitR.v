(** * Proofs: RESIT with the HSIC test *)
From Coq Require Import Reals Lra Lia Arith Bool List QArith Qcanon FunctionalExtensionality.
From Verif Require Import Prelude Lib LibR ModelKernel ModelMlHsic ModelDirectR ModelResit ProofMlHsic ModelResitR SpecResitR.
Import ListNotations.
Open Scope R_scope.

Lemma rsum_sq : forall m (x y : nat -> R), rsum m (fun k => x k * x k) + rsum m (fun k => y k * y k) - 2 * rsum m (fun k => x k * y k) = rsum m (fun k => (x k - y k) * (x k - y k)).
Proof. induction m as [|m IH]; intros x y; cbn [rsum]; [ring|]. rewrite <- IH. ring. Qed.
Lemma rsum_moved : forall m c (x y b : nat -> R), rsum m (fun k => ((c * x k + b k) - (c * y k + b k)) * ((c * x k + b k) - (c * y k + b k))) = c * c * rsum m (fun k => (x k - y k) * (x k - y k)).
Proof. induction m as [|m IH]; intros c x y b; cbn [rsum]; [ring|]. rewrite IH. ring. Qed.
Lemma sq_pos : forall a, a <> 0 -> 0 < a * a.
Proof. intros a Ha. assert (0 <= a * a) by apply Rle_0_sqr. assert (a * a <> 0) by (apply Rmult_integral_contrapositive; tauto). lra. Qed.

Section Block.
  Variables (n m : nat) (Y : rmat) (a : R) (b : nat -> R).
  Hypothesis Ha : a <> 0.
  Let Y' : rmat := fun s k => a * Y s k + b k.
  Lemma block_width_moved : block_width n m Y' = option_map (Rmult (Rabs a)) (block_width n m Y).
  Proof.
    unfold block_width. set (k := if (100 <? n)%nat then 100%nat else n). pose proof (sq_pos a Ha) as P.
    replace (block_dists k m Y') with (map (Rmult (a * a)) (block_dists k m Y)).
    - rewrite rmedian_map by exact P. destruct (rmedian (block_dists k m Y)) as [q|]; cbn; [|reflexivity]. f_equal.
      replace (1 / 2 * (a * a * q)) with ((a * a) * (1 / 2 * q)) by ring. rewrite sqrt_mult_alt by lra. f_equal. exact (sqrt_Rsqr_abs a).
    - unfold block_dists. rewrite <- filter_positive_scale by exact P. f_equal. rewrite map_flat_map. f_equal. apply functional_extensionality. intro i. rewrite map_map. apply map_ext. intro j.
      destruct (j <=? i)%nat; [ring|]. rewrite !rsum_sq. unfold Y'. rewrite rsum_moved. reflexivity.
  Qed.
  Lemma block_width_pos : forall w, block_width n m Y = Some w -> 0 < w.
  Proof using Type.
    intro w. unfold block_width. set (k := if (100 <? n)%nat then 100%nat else n). destruct (rmedian (block_dists k m Y)) as [q|] eqn:E; [|discriminate]. cbn. intro H. injection H as <-.
    apply sqrt_lt_R0. assert (0 < q); [|lra]. apply (rmedian_pos (block_dists k m Y)); [|exact E]. intros y Hy. apply filter_In in Hy. destruct Hy as [_ Hy]. unfold positive in Hy. destruct (Rlt_dec 0 y); [assumption|discriminate].
  Qed.
  Lemma rbf_moved : forall w, w <> 0 -> rbf_dot m Y' (Rabs a * w) = rbf_dot m Y w.
  Proof.
    intros w Hw. apply functional_extensionality. intro i. apply functional_extensionality. intro j. unfold rbf_dot. f_equal.
    replace (rsum m (fun k => Y' j k * Y' j k) + rsum m (fun k => Y' i k * Y' i k) - 2 * rsum m (fun k => Y' i k * Y' j k)) with
      (a * a * (rsum m (fun k => Y j k * Y j k) + rsum m (fun k => Y i k * Y i k) - 2 * rsum m (fun k => Y i k * Y j k))).
    - replace ((Rabs a * w) ^ 2) with (a * a * w ^ 2). { field. split; [exact Hw|exact Ha]. }
      assert (E : Rabs a * Rabs a = a * a) by (rewrite <- Rabs_mult; apply Rabs_right, Rle_ge, Rle_0_sqr). cbn [pow]. rewrite <- E. ring.
    - rewrite (Rplus_comm (rsum m (fun k => Y j k * Y j k))), (Rplus_comm (rsum m (fun k => Y' j k * Y' j k))). rewrite !rsum_sq. unfold Y'. rewrite rsum_moved. reflexivity.
  Qed.
End Block.

Section Test.
  Variables (sf : nat -> R -> R -> R -> option R) (n m m' : nat) (Y Z : rmat) (a c : R) (b d : nat -> R).
  Lemma hsic_test_moved : a <> 0 -> c <> 0 -> hsic_test sf n m m' (fun s k => a * Y s k + b k) (fun s k => c * Z s k + d k) = hsic_test sf n m m' Y Z.
  Proof.
    intros Ha Hc. unfold hsic_test. destruct (n <=? 3)%nat; [reflexivity|]. rewrite (block_width_moved n m Y a b Ha), (block_width_moved n m' Z c d Hc).
    destruct (block_width n m Y) as [w|] eqn:EW; cbn [option_map]; [|reflexivity]. destruct (block_width n m' Z) as [v|] eqn:EV; cbn [option_map]; [|reflexivity].
    pose proof (block_width_pos n m Y w EW). pose proof (block_width_pos n m' Z v EV). unfold get_gram_matrix. rewrite (rbf_moved m Y a b Ha w), (rbf_moved m' Z c d Hc v) by lra. reflexivity.
  Qed.
  (** only the columns of the block matter *)
  Lemma hsic_test_ext : forall Z2, (forall s k, (k < m')%nat -> Z s k = Z2 s k) -> hsic_test sf n m m' Y Z = hsic_test sf n m m' Y Z2.
  Proof.
    intros Z2 H. unfold hsic_test. destruct (n <=? 3)%nat; [reflexivity|]. revert H. clear. intro H.
    assert (E : block_width n m' Z = block_width n m' Z2 /\ (forall w, rbf_dot m' Z w = rbf_dot m' Z2 w)).
    { assert (E : forall i j, rsum m' (fun k => Z i k * Z j k) = rsum m' (fun k => Z2 i k * Z2 j k)) by (intros i j; apply rsum_ext; intros k Hk; rewrite !H by exact Hk; reflexivity). split.
      - unfold block_width, block_dists. repeat f_equal. apply functional_extensionality. intro i. apply map_ext. intro j. rewrite !E. reflexivity.
      - intro w. unfold rbf_dot. apply functional_extensionality. intro i. apply functional_extensionality. intro j. rewrite !E. reflexivity. }
    destruct E as [E1 E2]. unfold get_gram_matrix. rewrite E1. destruct (block_width n m Y); [|reflexivity]. destruct (block_width n m' Z2); [|reflexivity]. rewrite E2. reflexivity.
  Qed.
End Test.

Lemma rescaled_row_map : forall a b X L s, rescaled_row (map (fun j => (a j, b j)) L) (rows_of X L s) = rows_of (rescaled a b X) L s.
Proof. intros a b X L s. unfold rows_of. induction L as [|j L IH]; [reflexivity|]. cbn [map rescaled_row]. rewrite IH. reflexivity. Qed.

Section Units.
  Variables (sf : nat -> R -> R -> R -> option R) (reg : nat -> (nat -> list R) -> (nat -> R) -> list R -> R) (alpha : R) (n : nat) (X : nat -> nat -> R) (a b : nat -> R).
  Hypothesis UF : unit_free reg.
  Hypothesis Ha : forall j, a j <> 0.
  Let X' := rescaled a b X.
  Lemma residual_moved : forall L k s, (0 < n)%nat -> residual_col reg n X' L k s = a k * residual_col reg n X L k s.
  Proof.
    intros L k s Hn. unfold residual_col. pose proof (UF n (rows_of X L) (X k) (rows_of X L s) (map (fun j => (a j, b j)) L) (a k) (b k) Hn) as E.
    rewrite rescaled_row_map in E. replace (fun s0 => rescaled_row (map (fun j => (a j, b j)) L) (rows_of X L s0)) with (rows_of X' L) in E by (apply functional_extensionality; intro; symmetry; apply rescaled_row_map).
    fold X' in E. change (fun s0 => a k * X k s0 + b k) with (X' k) in E. rewrite E.
    - unfold X', rescaled. ring.
    - intros q Hq. apply in_map_iff in Hq. destruct Hq as (j & <- & _). apply Ha.
    - apply Ha.
  Qed.
  Lemma residual_test_moved : forall L k c, c <> 0 -> (forall j, In j L -> a j = c) -> residual_test sf reg n X' L k = residual_test sf reg n X L k.
  Proof.
    intros L k c Hc HL. unfold residual_test. destruct (Nat.leb_spec n 3) as [S|S].
    - unfold hsic_test. destruct (Nat.leb_spec n 3); [reflexivity|lia].
    - rewrite <- (hsic_test_moved sf n 1 (length L) (fun s _ => residual_col reg n X L k s) (block X L) (a k) c (fun _ => 0) (fun i => b (nth i L 0%nat)) (Ha k) Hc).
      replace (fun s (_ : nat) => residual_col reg n X' L k s) with (fun s (_ : nat) => a k * residual_col reg n X L k s + 0).
      + apply hsic_test_ext. intros s i Hi. unfold block, X', rescaled. rewrite (HL (nth i L 0%nat)) by (apply nth_In; exact Hi). reflexivity.
      + apply functional_extensionality. intro s. apply functional_extensionality. intros _. rewrite residual_moved by lia. ring.
  Qed.
End Units.

(** everything after the tests *)
Section Same.
  Variables (sf : nat -> R -> R -> R -> option R) (reg : nat -> (nat -> list R) -> (nat -> R) -> list R -> R) (alpha : R) (n : nat) (X X' : nat -> nat -> R).
  Lemma same_tests : (forall L k, residual_test sf reg n X' L k = residual_test sf reg n X L k) -> forall p, resit_R sf reg alpha n X' p = resit_R sf reg alpha n X p.
  Proof.
    intros H p. unfold resit_R.
    assert (S : forall st, order_stepR sf reg n X' st = order_stepR sf reg n X st).
    { intros [[U pa] pi]. unfold order_stepR. assert (E : order_stats sf reg n X' U = order_stats sf reg n X U).
      { unfold order_stats. replace (fun k => let* t := residual_test sf reg n X' (remove_nat k U) k in Ok (fst t)) with (fun k => let* t := residual_test sf reg n X (remove_nat k U) k in Ok (fst t)); [reflexivity|].
        apply functional_extensionality. intro k. rewrite H. reflexivity. }
      rewrite E. reflexivity. }
    assert (L : forall m st, order_loopR sf reg n X' m st = order_loopR sf reg n X m st).
    { induction m as [|m IH]; intro st; cbn [order_loopR]; [reflexivity|]. rewrite S. destruct (order_stepR sf reg n X st); cbn [bind]; [apply IH|reflexivity]. }
    rewrite L. replace (acceptsR sf reg alpha n X') with (acceptsR sf reg alpha n X); [reflexivity|].
    apply functional_extensionality. intro k. apply functional_extensionality. intro ps. unfold acceptsR. rewrite H. reflexivity.
  Qed.
  Lemma same_pair_tests : (forall j k, residual_test sf reg n X' [j] k = residual_test sf reg n X [j] k) -> resit_R sf reg alpha n X' 2 = resit_R sf reg alpha n X 2.
  Proof.
    intro H. unfold resit_R. cbn [seq order_loopR order_stepR].
    assert (E : order_stats sf reg n X' [0; 1]%nat = order_stats sf reg n X [0; 1]%nat).
    { unfold order_stats. cbn [traverse]. change (remove_nat 0 [0; 1]%nat) with [1%nat]. change (remove_nat 1 [0; 1]%nat) with [0%nat]. rewrite !H. reflexivity. }
    rewrite E. destruct (order_stats sf reg n X [0; 1]%nat) as [st|e]; cbn [bind]; [|reflexivity]. destruct (argmin st) as [[|[|i]]|]; cbn [nth_error bind]; try reflexivity.
    destruct i; reflexivity.
  Qed.
End Same.
