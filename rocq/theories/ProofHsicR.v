(** * The HSIC statistic of the Gaussian kernel: nonnegative, and zero exactly on independent samples *)
From Coq Require Import Reals Lra Lia Arith Bool List FunctionalExtensionality.
From Verif Require Import LibR SpecKernel ModelKernel ProofKernel.
Import ListNotations.
Open Scope R_scope.

Definition rows (n : nat) (L : rmat) (i : nat) : R := rsum n (fun j => L i j).
Definition total (n : nat) (L : rmat) : R := rsum n (rows n L).
Lemma centre_eq : forall n L i j, sym n L -> (i < n)%nat -> (j < n)%nat ->
  gram_centre n L i j = L i j - (rows n L j + rows n L i) / INR n + total n L / INR n ^ 2.
Proof.
  intros n L i j S Hi Hj. unfold gram_centre.
  assert (E : rsum n (fun i => L i j) = rows n L j) by (apply rsum_ext; intros; apply S; assumption). rewrite E. reflexivity.
Qed.
Lemma centre_sym : forall n L, sym n L -> sym n (gram_centre n L).
Proof.
  intros n L S i j Hi Hj. rewrite !centre_eq by assumption. rewrite (S i j) by assumption. unfold Rdiv. ring.
Qed.
Lemma centre_row : forall n L i, (0 < n)%nat -> sym n L -> (i < n)%nat -> rsum n (fun j => gram_centre n L i j) = 0.
Proof.
  intros n L i Hn S Hi. unfold gram_centre. rewrite rsum_plus, rsum_minus, rsum_const.
  assert (N : INR n <> 0) by (apply not_0_INR; lia).
  unfold Rdiv. rewrite rsum_scal_r, rsum_plus, rsum_const.
  assert (E : rsum n (fun j => rsum n (fun i => L i j)) = rsum n (fun i => rsum n (fun j => L i j))) by apply rsum_swap.
  rewrite E. set (r := rsum n (fun j => L i j)). set (a := rsum n (fun i => rsum n (fun j => L i j))).  field. exact N.
Qed.
Lemma centre_qform : forall n L c, (0 < n)%nat -> sym n L ->
  qform n (gram_centre n L) c = qform n L (fun i => c i + - (rsum n c / INR n) * 1).
Proof.
  intros n L c Hn S. assert (N : INR n <> 0) by (apply not_0_INR; lia). rewrite (bform_add n L c (fun _ => 1) S).
  set (C := rsum n c).
  assert (B : bform n L c (fun _ => 1) = rsum n (fun i => c i * rows n L i)).
  { unfold bform, rows. apply rsum_ext. intros i _. rewrite <- rsum_scal. apply rsum_ext. intros; ring. }
  assert (Q : qform n L (fun _ => 1) = total n L).
  { unfold qform, total, rows. apply rsum_ext. intros i _. apply rsum_ext. intros; ring. }
  rewrite B, Q. unfold qform.
  transitivity (rsum n (fun i => rsum n (fun j => c i * c j * L i j)) + (- / INR n * rsum n (fun i => rsum n (fun j => c i * (c j * rows n L j)))
     + (- / INR n * rsum n (fun i => rsum n (fun j => c i * rows n L i * c j)) + total n L / INR n ^ 2 * rsum n (fun i => rsum n (fun j => c i * c j))))).
  - rewrite <- !rsum_scal, <- !rsum_plus. apply rsum_ext. intros i Hi. rewrite <- !rsum_scal, <- !rsum_plus. apply rsum_ext. intros j Hj.
    rewrite centre_eq by assumption. unfold Rdiv. ring.
  - rewrite (rsum_ext n (fun i => rsum n (fun j => c i * (c j * rows n L j))) (fun i => c i * rsum n (fun j => c j * rows n L j))) by (intros; apply rsum_scal).
    rewrite (rsum_ext n (fun i => rsum n (fun j => c i * rows n L i * c j)) (fun i => c i * rows n L i * C)) by (intros; apply rsum_scal).
    rewrite (rsum_ext n (fun i => rsum n (fun j => c i * c j)) (fun i => c i * C)) by (intros; apply rsum_scal).
    rewrite !rsum_scal_r. fold C. field. exact N.
Qed.
Lemma centre_psd : forall n L, (0 < n)%nat -> sym n L -> psd n L -> psd n (gram_centre n L).
Proof. intros n L Hn S P c. rewrite centre_qform by assumption. apply P. Qed.

Lemma stat_qform : forall n K L, (0 < n)%nat -> sym n K -> sym n L ->
  hsic_teststat (gram_centre n K) (gram_centre n L) n = 1 / INR n * qform n (fun i j => gram_centre n L i j * K i j) (fun _ => 1).
Proof.
  intros n K L Hn SK SL. unfold hsic_teststat. f_equal. set (Lc := gram_centre n L).
  assert (R0 : forall i, (i < n)%nat -> rsum n (fun j => Lc i j) = 0) by (intros; apply centre_row; assumption).
  assert (SLc : sym n Lc) by (apply centre_sym; exact SL).
  transitivity (rsum n (fun i => rsum n (fun j => 1 * 1 * (Lc i j * K i j)) + (- / INR n * rows n K i + total n K / INR n ^ 2) * rsum n (fun j => Lc i j))
    + - / INR n * rsum n (fun i => rsum n (fun j => rows n K j * Lc i j))).
  - rewrite <- rsum_scal, <- rsum_plus. apply rsum_ext. intros i Hi. rewrite <- !rsum_scal, <- !rsum_plus. apply rsum_ext. intros j Hj.
    rewrite (centre_eq n K) by assumption. rewrite (SK j i) by assumption. unfold Rdiv. ring.
  - rewrite (rsum_swap n n (fun i j => rows n K j * Lc i j)).
    rewrite (rsum_ext n (fun j => rsum n (fun i => rows n K j * Lc i j)) (fun j => rows n K j * rsum n (fun i => Lc j i))).
    2:{ intros j Hj. rewrite <- rsum_scal. apply rsum_ext. intros i Hi. rewrite (SLc i j) by assumption. reflexivity. }
    rewrite (rsum_0 n (fun j => rows n K j * _)) by (intros j Hj; rewrite R0 by exact Hj; ring).
    unfold qform. rewrite Rmult_0_r, Rplus_0_r. apply rsum_ext. intros i Hi. rewrite (R0 i Hi). ring.
Qed.
Lemma rbf_symm : forall n m X w, sym n (rbf_dot m X w).
Proof. intros n m X w i j _ _. apply rbf_sym. Qed.
Lemma rbf_psd : forall n m X w, w <> 0 -> psd n (rbf_dot m X w).
Proof.
  intros n m X w Hw c. assert (P1 : psd n (fun _ _ => 1)).
  { intro e. unfold qform. rewrite (rsum_ext n _ (fun i => e i * rsum n e)).
    - rewrite rsum_scal_r. apply Rle_0_sqr.
    - intros i _. rewrite <- rsum_scal. apply rsum_ext. intros; ring. }
  pose proof (kernel_psd n m X w (fun _ _ => 1) Hw P1 c) as H. eapply Rle_trans; [exact H|]. apply Req_le. apply qform_ext. intros; ring.
Qed.
Lemma stat_nonneg : forall n m1 m2 X Y wx wy, (0 < n)%nat -> wx <> 0 -> wy <> 0 ->
  0 <= hsic_teststat (gram_centre n (rbf_dot m1 X wx)) (gram_centre n (rbf_dot m2 Y wy)) n.
Proof.
  intros n m1 m2 X Y wx wy Hn Hx Hy. rewrite stat_qform by (try assumption; apply rbf_symm).
  apply Rmult_le_pos.
  - unfold Rdiv. rewrite Rmult_1_l. apply Rlt_le, Rinv_0_lt_compat, lt_0_INR, Hn.
  - apply (kernel_psd n m1 X wx (gram_centre n (rbf_dot m2 Y wy)) Hx). apply centre_psd; [exact Hn|apply rbf_symm|apply rbf_psd; exact Hy].
Qed.

(** ** Zero exactly on empirically independent samples *)
Definition cnt (n : nat) (p : nat -> bool) : R := rsum n (fun i => if p i then 1 else 0).
Lemma zero_counts : forall n m1 m2 X Y wx wy, (0 < n)%nat -> wx <> 0 -> wy <> 0 ->
  hsic_teststat (gram_centre n (rbf_dot m1 X wx)) (gram_centre n (rbf_dot m2 Y wy)) n = 0 ->
  forall u v, INR n * cnt n (fun i => row_eq m1 (X i) u && row_eq m2 (Y i) v) = cnt n (fun i => row_eq m1 (X i) u) * cnt n (fun i => row_eq m2 (Y i) v).
Proof.
  intros n m1 m2 X Y wx wy Hn Hx Hy Z u v. assert (N : INR n <> 0) by (apply not_0_INR; lia).
  rewrite stat_qform in Z by (try assumption; apply rbf_symm).
  apply Rmult_integral in Z. destruct Z as [Z|Z].
  { exfalso. unfold Rdiv in Z. rewrite Rmult_1_l in Z. apply (Rinv_neq_0_compat _ N). exact Z. }
  apply (kernel_indicator n m1 X wx (gram_centre n (rbf_dot m2 Y wy)) u Hx) in Z;
    [|apply centre_sym, rbf_symm|apply centre_psd; [exact Hn|apply rbf_symm|apply rbf_psd; exact Hy]].
  rewrite centre_qform in Z by (try exact Hn; apply rbf_symm).
  apply (kernel_vector n m2 Y wy _ v Hy) in Z.
  set (mu := rsum n (fun i => if row_eq m1 (X i) u then 1 else 0) / INR n) in Z.
  assert (E : cnt n (fun i => row_eq m1 (X i) u && row_eq m2 (Y i) v) - mu * cnt n (fun i => row_eq m2 (Y i) v) = 0).
  { refine (eq_trans _ Z). unfold cnt. rewrite <- rsum_scal, <- rsum_minus. apply rsum_ext. intros i _.
    destruct (row_eq m1 (X i) u), (row_eq m2 (Y i) v); cbn; ring. }
  apply Rminus_diag_uniq in E. rewrite E. unfold mu. fold (cnt n (fun i => row_eq m1 (X i) u)). field. exact N.
Qed.
Lemma cnt_pos : forall n p a, (a < n)%nat -> p a = true -> 0 < cnt n p.
Proof.
  intros n p a Ha E. eapply Rlt_le_trans; [|apply (rsum_ge_one n _ a Ha); intros i _; destruct (p i); lra]. cbn beta. rewrite E. lra.
Qed.
Lemma row_eq_refl : forall m u, row_eq m u u = true.
Proof. intros. apply row_eq_spec. intros k _. reflexivity. Qed.
Lemma row_eq_sym : forall m u v, row_eq m u v = row_eq m v u.
Proof.
  intros. apply eq_true_iff_eq. rewrite !row_eq_spec. split; intros H k Hk; symmetry; apply H; exact Hk.
Qed.
(** Sums over independent samples factor. *)
Lemma independent_sum : forall n m1 m2 X Y (g : nat -> nat -> R), (0 < n)%nat ->
  (forall a b, (a < n)%nat -> (b < n)%nat -> INR n * cnt n (fun i => row_eq m1 (X i) (X a) && row_eq m2 (Y i) (Y b)) =
     cnt n (fun i => row_eq m1 (X i) (X a)) * cnt n (fun i => row_eq m2 (Y i) (Y b))) ->
  (forall i a b, (i < n)%nat -> (a < n)%nat -> (b < n)%nat -> row_eq m1 (X i) (X a) = true -> row_eq m2 (Y i) (Y b) = true -> g i i = g a b) ->
  INR n * rsum n (fun i => g i i) = rsum n (fun i => rsum n (fun j => g i j)).
Proof.
  intros n m1 m2 X Y g Hn HC HG. assert (N : INR n <> 0) by (apply not_0_INR; lia).
  set (ex := fun i a => if row_eq m1 (X i) (X a) then 1 else 0). set (ey := fun i a => if row_eq m2 (Y i) (Y a) then 1 else 0).
  set (Nx := fun a => cnt n (fun i => row_eq m1 (X i) (X a))). set (Ny := fun a => cnt n (fun i => row_eq m2 (Y i) (Y a))).
  assert (Px : forall a, (a < n)%nat -> 0 < Nx a) by (intros a Ha; apply (cnt_pos n _ a Ha), row_eq_refl).
  assert (Py : forall a, (a < n)%nat -> 0 < Ny a) by (intros a Ha; apply (cnt_pos n _ a Ha), row_eq_refl).
  assert (Ux : forall i, (i < n)%nat -> rsum n (fun a => ex i a / Nx a) = 1).
  { intros i Hi. rewrite (rsum_ext n _ (fun a => ex a i * / Nx i)).
    - rewrite rsum_scal_r. fold (cnt n (fun a => row_eq m1 (X a) (X i))). change (rsum n (fun i0 => ex i0 i)) with (Nx i).
      apply Rinv_r. pose proof (Px i Hi). lra.
    - intros a Ha. unfold ex. rewrite (row_eq_sym m1 (X i)). destruct (row_eq m1 (X a) (X i)) eqn:E; [|unfold Rdiv; ring].
      assert (EN : Nx a = Nx i); [|rewrite EN; unfold Rdiv; ring].
      unfold Nx, cnt. apply rsum_ext. intros k _. assert (EE : row_eq m1 (X k) (X a) = row_eq m1 (X k) (X i)); [|rewrite EE; reflexivity].
      apply row_eq_spec in E. apply eq_true_iff_eq. rewrite !row_eq_spec. split; intros H l Hl; rewrite (H l Hl); [|symmetry]; apply E; exact Hl. }
  assert (Uy : forall i, (i < n)%nat -> rsum n (fun a => ey i a / Ny a) = 1).
  { intros i Hi. rewrite (rsum_ext n _ (fun a => ey a i * / Ny i)).
    - rewrite rsum_scal_r. change (rsum n (fun i0 => ey i0 i)) with (Ny i). apply Rinv_r. pose proof (Py i Hi). lra.
    - intros a Ha. unfold ey. rewrite (row_eq_sym m2 (Y i)). destruct (row_eq m2 (Y a) (Y i)) eqn:E; [|unfold Rdiv; ring].
      assert (EN : Ny a = Ny i); [|rewrite EN; unfold Rdiv; ring].
      unfold Ny, cnt. apply rsum_ext. intros k _. assert (EE : row_eq m2 (Y k) (Y a) = row_eq m2 (Y k) (Y i)); [|rewrite EE; reflexivity].
      apply row_eq_spec in E. apply eq_true_iff_eq. rewrite !row_eq_spec. split; intros H l Hl; rewrite (H l Hl); [|symmetry]; apply E; exact Hl. }
  transitivity (INR n * rsum n (fun i => rsum n (fun a => rsum n (fun b => ex i a / Nx a * (ey i b / Ny b) * g a b)))).
  - f_equal. apply rsum_ext. intros i Hi.
    transitivity (rsum n (fun a => ex i a / Nx a) * rsum n (fun b => ey i b / Ny b) * g i i); [rewrite Ux, Uy by exact Hi; ring|].
    rewrite <- rsum_scal_r, <- rsum_scal_r. apply rsum_ext. intros a Ha. rewrite <- rsum_scal, <- rsum_scal_r. apply rsum_ext. intros b Hb.
    unfold ex, ey. destruct (row_eq m1 (X i) (X a)) eqn:E1; [|unfold Rdiv; ring]. destruct (row_eq m2 (Y i) (Y b)) eqn:E2; [|unfold Rdiv; ring].
    rewrite (HG i a b Hi Ha Hb E1 E2). reflexivity.
  - rewrite rsum_swap, <- rsum_scal. apply rsum_ext. intros a Ha. rewrite rsum_swap, <- rsum_scal. apply rsum_ext. intros b Hb.
    rewrite (rsum_ext n _ (fun i => (if row_eq m1 (X i) (X a) && row_eq m2 (Y i) (Y b) then 1 else 0) * (g a b / (Nx a * Ny b)))).
    2:{ intros i _. unfold ex, ey. pose proof (Px a Ha). pose proof (Py b Hb).
        destruct (row_eq m1 (X i) (X a)), (row_eq m2 (Y i) (Y b)); cbn; field; lra. }
    rewrite rsum_scal_r. fold (cnt n (fun i => row_eq m1 (X i) (X a) && row_eq m2 (Y i) (Y b))).
    rewrite <- Rmult_assoc, (HC a b Ha Hb). fold (Nx a) (Ny b). pose proof (Px a Ha). pose proof (Py b Hb). field. lra.
Qed.
Lemma rbf_row : forall m X w i a j, row_eq m (X i) (X a) = true -> rbf_dot m X w i j = rbf_dot m X w a j.
Proof.
  intros m X w i a j H. apply row_eq_spec in H. unfold rbf_dot. f_equal. f_equal. f_equal. f_equal. f_equal.
  - f_equal. apply rsum_ext. intros k Hk. rewrite (H k Hk). reflexivity.
  - f_equal. apply rsum_ext. intros k Hk. rewrite (H k Hk). reflexivity.
Qed.
Lemma independent_zero : forall n m1 m2 X Y wx wy, (0 < n)%nat ->
  (forall a b, (a < n)%nat -> (b < n)%nat -> INR n * cnt n (fun i => row_eq m1 (X i) (X a) && row_eq m2 (Y i) (Y b)) =
     cnt n (fun i => row_eq m1 (X i) (X a)) * cnt n (fun i => row_eq m2 (Y i) (Y b))) ->
  hsic_teststat (gram_centre n (rbf_dot m1 X wx)) (gram_centre n (rbf_dot m2 Y wy)) n = 0.
Proof.
  intros n m1 m2 X Y wx wy Hn HC. assert (N : INR n <> 0) by (apply not_0_INR; lia).
  rewrite stat_qform by (try assumption; apply rbf_symm).
  set (K := rbf_dot m1 X wx). set (L := rbf_dot m2 Y wy).
  assert (SK : sym n K) by apply rbf_symm. assert (SL : sym n L) by apply rbf_symm.
  assert (Q : qform n (fun i j => gram_centre n L i j * K i j) (fun _ => 1) =
     rsum n (fun i => rsum n (fun j => K i j * L i j)) - 2 / INR n * rsum n (fun i => rows n K i * rows n L i) + total n L / INR n ^ 2 * total n K).
  { unfold qform.
    transitivity (rsum n (fun i => rsum n (fun j => K i j * L i j)) + (- / INR n * rsum n (fun i => rsum n (fun j => rows n L j * K i j))
       + (- / INR n * rsum n (fun i => rsum n (fun j => rows n L i * K i j)) + total n L / INR n ^ 2 * rsum n (fun i => rsum n (fun j => K i j))))).
    - rewrite <- !rsum_scal, <- !rsum_plus. apply rsum_ext. intros i Hi. rewrite <- !rsum_scal, <- !rsum_plus. apply rsum_ext. intros j Hj.
      rewrite centre_eq by assumption. unfold Rdiv. ring.
    - rewrite (rsum_swap n n (fun i j => rows n L j * K i j)).
      rewrite (rsum_ext n (fun j => rsum n (fun i => rows n L j * K i j)) (fun j => rows n K j * rows n L j)).
      2:{ intros j _. rewrite rsum_scal, Rmult_comm. f_equal. apply rsum_ext. intros; apply rbf_sym. }
      rewrite (rsum_ext n (fun i => rsum n (fun j => rows n L i * K i j)) (fun j => rows n K j * rows n L j)).
      2:{ intros j _. rewrite rsum_scal, Rmult_comm. reflexivity. }
      change (rsum n (fun i => rsum n (fun j => K i j))) with (total n K). unfold Rdiv. ring. }
  rewrite Q.
  assert (E2 : INR n * rsum n (fun i => rows n K i * rows n L i) = total n K * total n L).
  { rewrite (independent_sum n m1 m2 X Y (fun i j => rows n K i * rows n L j) Hn HC).
    - unfold total. rewrite <- rsum_scal_r. apply rsum_ext. intros; apply rsum_scal.
    - intros i a b Hi Ha Hb E1 E2. f_equal; apply rsum_ext; intros k _; apply rbf_row; assumption. }
  assert (E1 : INR n * (INR n * rsum n (fun i => rsum n (fun j => K i j * L i j))) = total n K * total n L).
  { rewrite <- (rsum_scal n (INR n) (fun i => rsum n (fun j => K i j * L i j))).
    transitivity (INR n * rsum n (fun i => rows n K i * rows n L i)); [|exact E2]. f_equal.
    rewrite (rsum_ext n (fun i => INR n * rsum n (fun j => K i j * L i j)) (fun i => rsum n (fun a => rsum n (fun b => K i a * L i b)))).
    - apply rsum_ext. intros i _. unfold rows. rewrite <- rsum_scal_r. apply rsum_ext. intros a _. apply rsum_scal.
    - intros i _. apply (independent_sum n m1 m2 X Y (fun a b => K i a * L i b) Hn HC).
      intros j a b Hj Ha Hb F1 F2. unfold K, L. rewrite (rbf_sym m1 X wx i j), (rbf_sym m1 X wx i a), (rbf_sym m2 Y wy i j), (rbf_sym m2 Y wy i b).
      f_equal; apply rbf_row; assumption. }
  set (A := rsum n (fun i => rsum n (fun j => K i j * L i j))) in *. set (B := rsum n (fun i => rows n K i * rows n L i)) in *.
  assert (EA : A = total n K * total n L / INR n ^ 2) by (rewrite <- E1; field; exact N).
  assert (EB : B = total n K * total n L / INR n) by (rewrite <- E2; field; exact N).
  rewrite EA, EB. field. exact N.
Qed.

(** ** Cauchy-Schwarz *)
Lemma cs_list : forall n (f g : nat -> R), rsum n (fun i => f i * g i) * rsum n (fun i => f i * g i) <= rsum n (fun i => f i * f i) * rsum n (fun i => g i * g i).
Proof.
  intros n f g. set (a := rsum n (fun i => f i * f i)). set (b := rsum n (fun i => f i * g i)). set (c := rsum n (fun i => g i * g i)).
  assert (P : forall t, 0 <= a - 2 * t * b + t * t * c).
  { intro t. assert (E : a - 2 * t * b + t * t * c = rsum n (fun i => (f i - t * g i) * (f i - t * g i))).
    { unfold a, b, c. rewrite <- !rsum_scal, <- rsum_minus, <- rsum_plus. apply rsum_ext. intros; ring. }
    rewrite E. apply rsum_nonneg. intros. apply Rle_0_sqr. }
  assert (C0 : 0 <= c) by (apply rsum_nonneg; intros; apply Rle_0_sqr).
  assert (A0 : 0 <= a) by (apply rsum_nonneg; intros; apply Rle_0_sqr).
  destruct (Req_dec c 0) as [Z|Z].
  - assert (B0 : b = 0).
    { apply rsum_0. intros i Hi. pose proof (rsum_zero_all n (fun i => g i * g i) ltac:(intros; apply Rle_0_sqr) Z i Hi) as G. cbn beta in G.
      apply Rsqr_0_uniq in G. rewrite G. ring. }
    rewrite B0, Z. lra.
  - pose proof (P (b / c)) as Q. assert (E : a - 2 * (b / c) * b + b / c * (b / c) * c = (a * c - b * b) / c) by (field; exact Z).
    rewrite E in Q. assert (0 < c) by lra. assert (0 <= (a * c - b * b) / c * c) by (apply Rmult_le_pos; lra).
    replace ((a * c - b * b) / c * c) with (a * c - b * b) in * by (field; exact Z). lra.
Qed.
Lemma cs_matrix : forall n (A B : rmat), let ip := fun A B : rmat => rsum n (fun i => rsum n (fun j => A i j * B i j)) in
  ip A B * ip A B <= ip A A * ip B B.
Proof.
  intros n A B ip.
  assert (E : forall A B : rmat, ip A B = rsum (n * n) (fun k => A (k / n)%nat (k mod n)%nat * B (k / n)%nat (k mod n)%nat)).
  { intros A' B'. unfold ip. clear A B ip.
    assert (G : forall r, rsum r (fun i => rsum n (fun j => A' i j * B' i j)) = rsum (r * n) (fun k => A' (k / n)%nat (k mod n)%nat * B' (k / n)%nat (k mod n)%nat)).
    { induction r as [|r IH]; [reflexivity|]. replace (S r * n)%nat with (r * n + n)%nat by lia. rewrite rsum_split, <- IH. cbn [rsum]. f_equal.
      apply rsum_ext. intros j Hj. rewrite (Nat.div_add_l r n j), (Nat.add_comm (r * n) j), Nat.mod_add, Nat.div_small, Nat.mod_small, Nat.add_0_r by lia. reflexivity. }
    apply G. }
  rewrite !E. apply cs_list.
Qed.

(** ** Moments under the null hypothesis *)
Lemma rbf_le1 : forall m X w i j, w <> 0 -> 0 < rbf_dot m X w i j <= 1.
Proof.
  intros m X w i j Hw. split; [apply exp_pos|]. unfold rbf_dot.
  assert (E : rsum m (fun k => X j k * X j k) + rsum m (fun k => X i k * X i k) - 2 * rsum m (fun k => X i k * X j k) = rsum m (fun k => (X i k - X j k) * (X i k - X j k))).
  { rewrite <- rsum_scal, <- rsum_plus, <- rsum_minus. apply rsum_ext. intros; ring. }
  rewrite E. set (d := rsum m _). assert (D : 0 <= d) by (apply rsum_nonneg; intros; apply Rle_0_sqr).
  pose proof (width_pos w Hw) as P. rewrite <- exp_0.
  assert (A : - d / 2 / w ^ 2 <= 0).
  { unfold Rdiv. assert (0 <= d * / 2 * / w ^ 2) by (apply Rmult_le_pos; lra). lra. }
  destruct A as [A|A]; [left; apply exp_increasing; exact A|right; rewrite A; reflexivity].
Qed.
Lemma rbf_one : forall m X w i j, w <> 0 -> rbf_dot m X w i j = 1 -> same_row m (X i) (X j).
Proof.
  intros m X w i j Hw H k Hk. unfold rbf_dot in H. rewrite <- exp_0 in H. apply exp_inv in H.
  assert (E : rsum m (fun k => X j k * X j k) + rsum m (fun k => X i k * X i k) - 2 * rsum m (fun k => X i k * X j k) = rsum m (fun k => (X i k - X j k) * (X i k - X j k))).
  { rewrite <- rsum_scal, <- rsum_plus, <- rsum_minus. apply rsum_ext. intros; ring. }
  rewrite E in H. set (d := rsum m (fun k => (X i k - X j k) * (X i k - X j k))) in *.
  pose proof (width_pos w Hw) as P.
  assert (D : d = 0).
  { unfold Rdiv in H. apply Rmult_integral in H. destruct H as [H|H]; lra. }
  pose proof (rsum_zero_all m _ ltac:(intros; apply Rle_0_sqr) D k Hk) as Z. cbn beta in Z. apply Rsqr_0_uniq in Z. lra.
Qed.
