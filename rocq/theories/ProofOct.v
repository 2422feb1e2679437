(** * Proofs about the scores of OutOfSampleCausalTuning *)
From Coq Require Import Reals Arith List Lia Lra Bool QArith Qcanon.
From Verif Require Import Prelude Lib LibR SpecMeasure SpecOct ModelExper ModelOct ProofKernelMI.
Import ListNotations.
Open Scope R_scope.

Lemma lsum_app : forall l l', lsum (l ++ l') = lsum l + lsum l'.
Proof. unfold lsum. induction l as [|y l IHl]; intro l'; cbn [app fold_right]; [|rewrite IHl]; ring. Qed.
Lemma lsum_seq : forall n f, lsum (map f (seq 0 n)) = rsum n f.
Proof.
  induction n as [|n IH]; intro f; [reflexivity|]. rewrite seq_S, map_app. cbn [map rsum plus].
  assert (A : forall l a, lsum (l ++ [a]) = lsum l + a) by (induction l as [|x l IHl]; intro a; cbn [app lsum fold_right]; [ring|fold (lsum (l ++ [a])); fold (lsum l); rewrite IHl; ring]).
  rewrite A, IH. reflexivity.
Qed.
Lemma lmean_seq : forall n f, lmean (map f (seq 0 n)) = average n f.
Proof. intros. unfold lmean, average. rewrite lsum_seq, map_length, seq_length. reflexivity. Qed.
Lemma combine_map : forall {A B C} (f : A -> B) (g : A -> C) l, combine (map f l) (map g l) = map (fun a => (f a, g a)) l.
Proof. intros A B C f g l. induction l as [|a l IH]; [reflexivity|]. cbn. rewrite IH. reflexivity. Qed.
Definition cross (n : nat) (x y : nat -> R) : R := rsum n (fun s => (x s - average n x) * (y s - average n y)).
Lemma lcov_seq : forall n x y, lcov (map x (seq 0 n)) (map y (seq 0 n)) = cross n x y / (INR n - 1).
Proof. intros. unfold lcov. rewrite combine_map, map_map, !lmean_seq, map_length, seq_length. cbn [fst snd]. rewrite lsum_seq. reflexivity. Qed.

Section Corr.
  Context (n : nat) (Hn : (2 <= n)%nat).
  Lemma N1 : 0 < INR n - 1. Proof. apply le_INR in Hn. cbn in Hn. lra. Qed.
  Lemma cross_self : forall x, 0 <= cross n x x.
  Proof. intro x. apply rsum_nonneg. intros i _. apply Rle_0_sqr. Qed.
  Lemma cross_zero : forall x, cross n x x = 0 <-> constant_on n x.
  Proof.
    intro x. split.
    - intros Z s t Hs Ht. assert (A : forall u, (u < n)%nat -> x u = average n x).
      { intros u Hu. pose proof (rsum_zero_all n _ (fun i _ => Rle_0_sqr (x i - average n x)) Z u Hu) as W. cbv beta in W. apply Rsqr_0_uniq in W. lra. }
      rewrite (A s Hs), (A t Ht). reflexivity.
    - intro C. apply rsum_0. intros i Hi. replace (average n x) with (x i); [ring|]. rewrite (average_ext n x (fun _ => x i)) by (intros u Hu; apply C; assumption). symmetry. apply average_const. lia.
  Qed.
  (** the correlation of two columns *)
  Definition rho (x y : nat -> R) : R := cross n x y / sqrt (cross n x x) / sqrt (cross n y y).
  Lemma corrcoef_seq : forall x y, corrcoef (map x (seq 0 n)) (map y (seq 0 n)) =
    if Req_EM_T (cross n x x) 0 then None else if Req_EM_T (cross n y y) 0 then None else Some (rho x y).
  Proof.
    intros x y. unfold corrcoef. rewrite !lcov_seq. pose proof N1 as P. assert (Z : forall a, a / (INR n - 1) = 0 <-> a = 0).
    { intro a. split; intro H; [|rewrite H; unfold Rdiv; ring]. apply (Rmult_eq_reg_r (/ (INR n - 1))); [unfold Rdiv in H; rewrite H; ring|apply Rinv_neq_0_compat; lra]. }
    pose proof (cross_self x) as Cx. pose proof (cross_self y) as Cy.
    destruct (Req_EM_T (cross n x x / (INR n - 1)) 0) as [A|A], (Req_EM_T (cross n x x) 0) as [B|B]; try reflexivity; try (exfalso; apply (proj1 (Z _)) in A; contradiction); try (exfalso; apply A, (proj2 (Z _)); exact B).
    destruct (Req_EM_T (cross n y y / (INR n - 1)) 0) as [A'|A'], (Req_EM_T (cross n y y) 0) as [B'|B']; try reflexivity; try (exfalso; apply (proj1 (Z _)) in A'; contradiction); try (exfalso; apply A', (proj2 (Z _)); exact B').
    f_equal. unfold rho. rewrite (sqrt_div_alt (cross n x x)), (sqrt_div_alt (cross n y y)) by exact P. assert (S1 : 0 < sqrt (cross n x x)) by (apply sqrt_lt_R0; lra). assert (S2 : 0 < sqrt (cross n y y)) by (apply sqrt_lt_R0; lra).
    assert (S3 : 0 < sqrt (INR n - 1)) by (apply sqrt_lt_R0; lra). replace (INR n - 1) with (sqrt (INR n - 1) * sqrt (INR n - 1)) at 1 by (apply sqrt_sqrt; lra).
    field. repeat split; lra.
  Qed.
  Lemma rho_sq : forall x y, 0 < cross n x x -> 0 < cross n y y -> rho x y ^ 2 = (cross n x y) ^ 2 / (cross n x x * cross n y y).
  Proof.
    intros x y Px Py. unfold rho. assert (S1 : 0 < sqrt (cross n x x)) by (apply sqrt_lt_R0; lra). assert (S2 : 0 < sqrt (cross n y y)) by (apply sqrt_lt_R0; lra).
    rewrite <- (sqrt_sqrt (cross n x x)) at 2 by lra. rewrite <- (sqrt_sqrt (cross n y y)) at 2 by lra. field. split; lra.
  Qed.
  (** Cauchy-Schwarz with its case of equality *)
  Lemma schwarz_gap : forall x y, 0 < cross n x x -> rsum n (fun s => ((y s - average n y) - cross n x y / cross n x x * (x s - average n x)) ^ 2) = cross n y y - (cross n x y) ^ 2 / cross n x x.
  Proof.
    intros x y P. set (b := cross n x y / cross n x x).
    rewrite (rsum_ext n _ (fun s => (y s - average n y) * (y s - average n y) + ((- (2) * b) * ((x s - average n x) * (y s - average n y)) + b * b * ((x s - average n x) * (x s - average n x))))) by (intros; ring).
    rewrite !rsum_plus, !rsum_scal. fold (cross n y y) (cross n x y) (cross n x x). unfold b. field. lra.
  Qed.
  Lemma schwarz : forall x y, 0 < cross n x x -> 0 < cross n y y -> 0 <= 1 - rho x y ^ 2 /\ (1 - rho x y ^ 2 = 0 <-> exists a b, a <> 0 /\ forall s, (s < n)%nat -> y s = a * x s + b).
  Proof.
    intros x y Px Py. rewrite (rho_sq x y Px Py). pose proof (schwarz_gap x y Px) as G. set (b := cross n x y / cross n x x) in *.
    assert (E : 1 - cross n x y ^ 2 / (cross n x x * cross n y y) = (cross n y y - cross n x y ^ 2 / cross n x x) / cross n y y) by (field; lra).
    assert (NN : 0 <= rsum n (fun s => (y s - average n y - b * (x s - average n x)) ^ 2)) by (apply rsum_nonneg; intros; apply pow2_ge_0).
    rewrite E, <- G. split; [apply Rmult_le_pos; [exact NN|left; apply Rinv_0_lt_compat; exact Py]|]. split.
    - intro Z. assert (Z' : rsum n (fun s => (y s - average n y - b * (x s - average n x)) ^ 2) = 0).
      { apply (Rmult_eq_reg_r (/ cross n y y)); [unfold Rdiv in Z; rewrite Z; ring|apply Rinv_neq_0_compat; lra]. }
      assert (A : forall s, (s < n)%nat -> y s = b * x s + (average n y - b * average n x)).
      { intros s Hs. pose proof (rsum_zero_all n _ (fun i _ => pow2_ge_0 _) Z' s Hs) as W. cbv beta in W. assert (y s - average n y - b * (x s - average n x) = 0) by (destruct (Req_dec (y s - average n y - b * (x s - average n x)) 0) as [|K]; [assumption|exfalso; exact (pow_nonzero _ 2 K W)]). lra. }
      exists b, (average n y - b * average n x). split; [|exact A]. intro B0. assert (C : constant_on n y) by (intros s t Hs Ht; rewrite (A s Hs), (A t Ht), B0; ring). apply cross_zero in C. lra.
    - intros (a & c & Na & A). assert (M : average n y = a * average n x + c).
      { rewrite (average_ext n y (fun s => a * x s + c)) by exact A. rewrite average_plus, average_scal, average_const by lia. reflexivity. }
      assert (B : b = a). { unfold b, cross at 1. rewrite (rsum_ext n _ (fun s => a * ((x s - average n x) * (x s - average n x)))) by (intros s Hs; rewrite (A s Hs), M; ring). rewrite rsum_scal. fold (cross n x x). field. lra. }
      rewrite rsum_0; [unfold Rdiv; ring|]. intros s Hs. rewrite (A s Hs), M, B. ring.
  Qed.
  Lemma mi_seq : forall x y, mutual_info (map x (seq 0 n)) (map y (seq 0 n)) =
    if Req_EM_T (cross n x x) 0 then Nan else if Req_EM_T (cross n y y) 0 then Nan else if Req_EM_T (1 - rho x y ^ 2) 0 then Inf else Fin (- (1 / 2) * ln (1 - rho x y ^ 2)).
  Proof. intros x y. unfold mutual_info. rewrite corrcoef_seq. destruct (Req_EM_T (cross n x x) 0); [reflexivity|]. destruct (Req_EM_T (cross n y y) 0); reflexivity. Qed.
  Lemma cross_pos : forall x, cross n x x <> 0 -> 0 < cross n x x.
  Proof. intros x N. pose proof (cross_self x). lra. Qed.
End Corr.

(** ** Folds of equal size *)
Lemma blocks_sum : forall K m (f : nat -> R), rsum (K * m) f = rsum K (fun k => rsum m (fun r => f (k * m + r)%nat)).
Proof.
  induction K as [|K IH]; intros m f; [reflexivity|]. cbn [rsum]. rewrite <- IH. replace (S K * m)%nat with (K * m + m)%nat by lia. apply rsum_split.
Qed.
Lemma div_block : forall k m r, (r < m)%nat -> ((k * m + r) / m = k)%nat.
Proof. intros k m r H. rewrite Nat.div_add_l by lia. rewrite (Nat.div_small r m) by exact H. lia. Qed.
Lemma flat_blocks : forall {B} K m (g : nat -> nat -> B), (0 < m)%nat ->
  flat_map (fun k => map (g k) (seq (k * m) m)) (seq 0 K) = map (fun s => g (s / m)%nat s) (seq 0 (K * m)).
Proof.
  intros B K m g Hm. induction K as [|K IH]; [reflexivity|]. rewrite seq_S, flat_map_app, IH. cbn [flat_map plus]. rewrite app_nil_r.
  replace (S K * m)%nat with (K * m + m)%nat by lia. rewrite seq_app, map_app. cbn [plus]. f_equal. apply map_ext_in. intros s Hs. apply in_seq in Hs.
  replace (s / m)%nat with K; [reflexivity|]. replace s with (K * m + (s - K * m))%nat by lia. symmetry. apply div_block. lia.
Qed.
Lemma kfold_equal : forall K m, (2 <= K)%nat -> (0 < m)%nat -> kfold (K * m) K =
  Ok (map (fun f => (filter (fun s => negb ((f * m <=? s) && (s <? f * m + m))%nat) (seq 0 (K * m)), seq (f * m) m)) (seq 0 K)).
Proof.
  intros K m HK Hm. unfold kfold. replace (K <? 2)%nat with false by (symmetry; apply Nat.ltb_ge; lia). replace (K * m <? K)%nat with false by (symmetry; apply Nat.ltb_ge; nia).
  assert (D : (K * m / K = m)%nat) by (rewrite Nat.mul_comm; apply Nat.div_mul; lia). assert (M : (K * m) mod K = 0%nat) by (rewrite Nat.mul_comm; apply Nat.mod_mul; lia).
  f_equal. apply map_ext. intro f. unfold in_fold, fold_start, fold_size. rewrite D, M, Nat.min_0_r. cbn [Nat.ltb Nat.leb]. rewrite !Nat.add_0_r. reflexivity.
Qed.
(** the mean of the training rows *)
Lemma train_sum : forall n a m (x : nat -> R), (a + m <= n)%nat ->
  lsum (map x (filter (fun s => negb ((a <=? s) && (s <? a + m))%nat) (seq 0 n))) = rsum n x - rsum m (fun r => x (a + r)%nat) /\
  length (filter (fun s => negb ((a <=? s) && (s <? a + m))%nat) (seq 0 n)) = (n - m)%nat.
Proof.
  intros n a m x H. set (p := fun s => negb ((a <=? s) && (s <? a + m))%nat).
  pose proof lsum_app as A.
  replace n with (a + (m + (n - a - m)))%nat at 1 3 by lia. rewrite !seq_app, !filter_app. cbn [plus].
  assert (T : forall l, (forall s, In s l -> p s = true) -> filter p l = l). { induction l as [|y l IH]; intro Hl; [reflexivity|]. cbn [filter]. rewrite (Hl y (or_introl eq_refl)), IH; [reflexivity|]. intros s Hs. apply Hl. right. exact Hs. }
  assert (F : forall l, (forall s, In s l -> p s = false) -> filter p l = []). { induction l as [|y l IH]; intro Hl; [reflexivity|]. cbn [filter]. rewrite (Hl y (or_introl eq_refl)), IH; [reflexivity|]. intros s Hs. apply Hl. right. exact Hs. }
  rewrite (T (seq 0 a)), (F (seq a m)), (T (seq (a + m) (n - a - m))).
  - cbn [app]. split; [|rewrite app_length, !seq_length; lia]. rewrite map_app, A.
    assert (Sh : forall b k, lsum (map x (seq b k)) = rsum k (fun r => x (b + r)%nat)).
    { intros b k. rewrite <- (lsum_seq k (fun r => x (b + r)%nat)). f_equal. rewrite <- (map_map (fun r => (b + r)%nat) x). f_equal. replace b with (b + 0)%nat at 1 by lia. clear. generalize 0%nat as z. induction k as [|k IH]; intro z; [reflexivity|]. cbn [seq map]. f_equal. rewrite <- IH. f_equal. lia. }
    assert (En : rsum n x = rsum a x + (rsum m (fun r => x (a + r)%nat) + rsum (n - a - m) (fun r => x (a + m + r)%nat))).
    { replace n with (a + (m + (n - a - m)))%nat at 1 by lia. rewrite !rsum_split. f_equal. f_equal. apply rsum_ext. intros. f_equal. lia. }
    rewrite !Sh. rewrite En. cbn [plus]. rewrite (rsum_ext a (fun r => x r) x) by reflexivity. ring.
  - intros s Hs. apply in_seq in Hs. unfold p. apply negb_true_iff, andb_false_iff. right. apply Nat.ltb_ge. lia.
  - intros s Hs. apply in_seq in Hs. unfold p. apply negb_false_iff, andb_true_iff. split; [apply Nat.leb_le; lia|apply Nat.ltb_lt; lia].
  - intros s Hs. apply in_seq in Hs. unfold p. apply negb_true_iff, andb_false_iff. left. apply Nat.leb_gt. lia.
Qed.
Lemma no_edges_explanatory : forall d g j, no_edges g -> oct_explanatory d (Some g) j = [].
Proof.
  intros d g j H. cbn [oct_explanatory]. unfold oct_mb. assert (F : forall (q : nat -> num), (forall i, q i = Some 0%Qc) -> forall l, filter (fun i => oct_edge (q i)) l = []).
  { intros q Hq l. induction l as [|a l IH]; [reflexivity|]. cbn [filter]. rewrite Hq, IH. reflexivity. }
  rewrite (F (g j)) by apply H. rewrite (F (fun i => g i j)) by (intro; apply H). reflexivity.
Qed.
