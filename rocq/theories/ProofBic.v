(** * The score of LiM's local search: proofs *)
From Coq Require Import Reals ZArith Lra Lia Arith Bool List FunctionalExtensionality.
From Verif Require Import Prelude LibR SpecBic ModelBic.
Import ListNotations.
Open Scope R_scope.

(** ** Decomposition *)
Lemma fold_add_opt : forall (t : nat -> option R) l a s, fold_left (fun acc i => add_opt acc (t i)) l (Some a) = Some s <->
  exists v, (forall i, In i l -> t i = Some (v i)) /\ s = a + fold_right (fun i acc => v i + acc) 0 l.
Proof.
  intros t. assert (N : forall l, fold_left (fun acc i => add_opt acc (t i)) l None = None) by (induction l as [|x l IH]; [reflexivity|exact IH]).
  induction l as [|x l IH]; intros a s; cbn [fold_left fold_right].
  - split; [intro H; injection H as <-; exists (fun _ => 0); split; [intros i []|ring]|intros (v & _ & ->); f_equal; ring].
  - destruct (t x) as [y|] eqn:E; cbn [add_opt].
    + rewrite IH. split; intros (v & Hv & ->).
      * exists (fun i => match t i with Some z => z | None => 0 end). split.
        -- intros i [<-|Hi]; [rewrite E; reflexivity|rewrite (Hv i Hi); reflexivity].
        -- rewrite E. assert (Q : forall l', (forall i, In i l' -> t i = Some (v i)) -> fold_right (fun i acc => v i + acc) 0 l' = fold_right (fun i acc => (match t i with Some z => z | None => 0 end) + acc) 0 l').
           { induction l' as [|z l' IHl]; intro H; [reflexivity|]. cbn [fold_right]. rewrite (H z (or_introl eq_refl)), IHl by (intros; apply H; right; assumption). reflexivity. }
           rewrite (Q l Hv). ring.
      * exists v. split; [intros; apply Hv; right; assumption|]. pose proof (Hv x (or_introl eq_refl)) as Q. rewrite E in Q. injection Q as ->. ring.
    + rewrite N. split; [discriminate|]. intros (v & Hv & _). specialize (Hv x (or_introl eq_refl)). rewrite E in Hv. discriminate.
Qed.
Lemma fold_seq_rsum : forall f n, fold_right (fun i acc => f i + acc) 0 (seq 0 n) = rsum n f.
Proof.
  intros f n. induction n as [|n IH]; [reflexivity|]. rewrite seq_S, fold_right_app. cbn [fold_right rsum plus]. rewrite <- IH.
  assert (G : forall l a, fold_right (fun i acc => f i + acc) a l = fold_right (fun i acc => f i + acc) 0 l + a).
  { induction l as [|x l IHl]; intro a; cbn [fold_right]; [ring|]. rewrite IHl. ring. }
  rewrite G. ring.
Qed.
Fixpoint nsum (n : nat) (f : nat -> nat) : nat := match n with O => 0%nat | S k => (nsum k f + f k)%nat end.
Lemma filter_prod_length : forall (p : nat -> nat -> bool) l1 d, length (filter (fun q => p (fst q) (snd q)) (list_prod l1 (seq 0 d))) = nsum d (fun i => length (filter (fun j => p j i) l1)).
Proof.
  intros p l1 d. induction l1 as [|a l1 IH]; cbn [list_prod].
  - cbn. clear. induction d as [|d IHd]; [reflexivity|]. cbn. lia.
  - rewrite filter_app, app_length, IH. clear IH.
    assert (E : length (filter (fun q => p (fst q) (snd q)) (map (fun y => (a, y)) (seq 0 d))) = nsum d (fun i => if p a i then 1%nat else 0%nat)).
    { induction d as [|d IHd]; [reflexivity|]. rewrite seq_S, map_app, filter_app, app_length, IHd. cbn [map filter plus]. cbn [fst snd nsum]. destruct (p a d); reflexivity. }
    rewrite E. clear E. induction d as [|d IHd]; [reflexivity|]. cbn [nsum filter]. cbn [filter] in IHd. destruct (p a d); cbn [length]; lia.
Qed.
Lemma edges_by_parents : forall d W, number_of_edges d W = nsum d (fun i => length (parents d W i)).
Proof. intros. apply (filter_prod_length (fun j i => nonzero (W j i))). Qed.
Lemma INR_nsum : forall n f, INR (nsum n f) = rsum n (fun i => INR (f i)).
Proof. induction n as [|n IH]; intro f; [reflexivity|]. cbn [nsum rsum]. rewrite plus_INR, IH. reflexivity. Qed.

(** ** Counting *)
Lemma lsum_ext : forall l f g, (forall v, In v l -> f v = g v) -> lsum l f = lsum l g.
Proof. induction l as [|x l IH]; intros f g H; [reflexivity|]. cbn. f_equal; [apply H; left; reflexivity|]. apply IH. intros; apply H; right; assumption. Qed.
Lemma lsum_plus : forall l f g, lsum l (fun v => f v + g v) = lsum l f + lsum l g.
Proof. induction l as [|x l IH]; intros f g; cbn; [ring|]. fold (lsum l (fun v => f v + g v)) (lsum l f) (lsum l g). rewrite IH. ring. Qed.
Lemma lsum_scal : forall l c f, lsum l (fun v => c * f v) = c * lsum l f.
Proof. induction l as [|x l IH]; intros c f; cbn; [ring|]. fold (lsum l (fun v => c * f v)) (lsum l f). rewrite IH. ring. Qed.
Lemma lsum_le : forall l f g, (forall v, In v l -> f v <= g v) -> lsum l f <= lsum l g.
Proof.
  induction l as [|x l IH]; intros f g H; [cbn; lra|]. cbn. apply Rplus_le_compat; [apply H; left; reflexivity|]. apply IH. intros; apply H; right; assumption.
Qed.
Lemma lsum_single : forall l x y, NoDup l -> In x l -> lsum l (fun v => if Req_EM_T x v then y else 0) = y.
Proof.
  induction l as [|a l IH]; intros x y ND I; [destruct I|]. inversion ND; subst. cbn. fold (lsum l (fun v => if Req_EM_T x v then y else 0)). destruct I as [->|I].
  - destruct (Req_EM_T x x) as [_|N]; [|contradiction]. rewrite (lsum_ext l _ (fun _ => 0 * 0)).
    + rewrite lsum_scal. ring.
    + intros v Hv. destruct (Req_EM_T x v) as [->|]; [contradiction|ring].
  - destruct (Req_EM_T x a) as [->|]; [contradiction|]. rewrite IH by assumption. ring.
Qed.
Lemma lsum_count : forall vs f l, NoDup vs -> (forall x, In x l -> In x vs) -> lsum l f = lsum vs (fun v => INR (count_occ Req_EM_T l v) * f v).
Proof.
  intros vs f l ND. induction l as [|x l IH]; intro H.
  - cbn. rewrite (lsum_ext vs _ (fun v => 0 * 0)) by (intros; cbn; ring). rewrite lsum_scal. ring.
  - cbn [lsum fold_right]. fold (lsum l f). rewrite IH by (intros; apply H; right; assumption).
    rewrite <- (lsum_single vs x (f x) ND (H x (or_introl eq_refl))) at 1. rewrite <- lsum_plus. apply lsum_ext. intros v _. cbn [count_occ].
    destruct (Req_EM_T x v) as [->|]; [rewrite S_INR; ring|ring].
Qed.
Lemma lsum_map_seq : forall n x f, lsum (map x (seq 0 n)) f = rsum n (fun s => f (x s)).
Proof.
  intros n x f. rewrite <- (fold_seq_rsum (fun s => f (x s)) n). generalize (seq 0 n). induction l as [|a l IH]; [reflexivity|]. cbn. rewrite <- IH. reflexivity.
Qed.
Lemma count_is : forall n X i v, count n X i v = count_occ Req_EM_T (map (fun s => X s i) (seq 0 n)) v.
Proof.
  intros n X i v. unfold count. generalize (seq 0 n). induction l as [|a l IH]; [reflexivity|]. cbn. destruct (Req_EM_T (X a i) v); cbn; rewrite IH; reflexivity.
Qed.
Section Counts.
Context (n : nat) (X : rmat) (i : nat).
Let occ := occurring n X i.
Let c (v : R) := INR (count n X i v).
Lemma sum_by_value : forall f, rsum n (fun s => f (X s i)) = lsum occ (fun v => c v * f v).
Proof.
  intro f. rewrite <- (lsum_map_seq n (fun s => X s i) f). rewrite (lsum_count occ f).
  - apply lsum_ext. intros v _. unfold c. rewrite count_is. reflexivity.
  - apply NoDup_nodup.
  - intros x Hx. apply nodup_In. exact Hx.
Qed.
Lemma counts_total : fold_right plus 0%nat (map (count n X i) occ) = n.
Proof.
  apply INR_eq. assert (E : forall l, INR (fold_right plus 0%nat (map (count n X i) l)) = lsum l c) by (induction l as [|a l IH]; [reflexivity|]; cbn [map fold_right lsum]; rewrite plus_INR, IH; reflexivity).
  rewrite E. pose proof (sum_by_value (fun _ => 1)) as S. cbn beta in S. rewrite rsum_const in S. rewrite (lsum_ext _ _ c) in S by (intros; ring). lra.
Qed.
Lemma count_pos : forall v, In v occ -> 1 <= c v.
Proof.
  intros v H. unfold c. change 1 with (INR 1). apply le_INR. rewrite count_is. apply nodup_In in H. apply (count_occ_In Req_EM_T) in H. lia.
Qed.
Lemma occ_In : forall s, (s < n)%nat -> In (X s i) occ.
Proof. intros s Hs. apply nodup_In. apply (in_map (fun s => X s i)). apply in_seq. lia. Qed.
Lemma bernoulli_sum : bernoulli n X i = rsum n (fun s => ln (c (X s i) / INR n)).
Proof.
  rewrite (sum_by_value (fun v => ln (c v / INR n))). unfold bernoulli. fold occ. rewrite counts_total.
  assert (G : forall l a (g : R -> R), fold_left (fun acc v => acc + g v) l a = a + lsum l g).
  { induction l as [|x l IH]; intros a g; cbn; [ring|]. rewrite IH. unfold lsum. ring. }
  rewrite (G occ 0 (fun v => INR (count n X i v) * (ln (INR (count n X i v)) - ln (INR n)))). rewrite Rplus_0_l. apply lsum_ext. intros v Hv.
  pose proof (count_pos v Hv) as P. unfold c in *. f_equal. unfold Rdiv. destruct n as [|k] eqn:En.
  - exfalso. cbn in P. lra.
  - rewrite ln_mult, ln_Rinv by (try lra; try (apply Rinv_0_lt_compat); apply lt_0_INR; lia). reflexivity.
Qed.
Lemma ln_le_minus : forall z, 0 < z -> ln z <= z - 1.
Proof.
  intros z H. destruct (Req_dec (ln z) 0) as [E|E].
  - rewrite E. assert (z = 1) by (apply ln_inv; [exact H|lra|rewrite ln_1; exact E]). lra.
  - pose proof (exp_ineq1 (ln z) E) as P. rewrite exp_ln in P by exact H. lra.
Qed.
Lemma gibbs : forall q, (forall v, In v occ -> 0 < q v) -> lsum occ q <= 1 -> rsum n (fun s => ln (q (X s i))) <= bernoulli n X i.
Proof.
  intros q Q L. destruct (Nat.eq_dec n 0) as [Z|Nz]; [rewrite bernoulli_sum, Z; cbn; lra|]. assert (N : 0 < INR n) by (apply lt_0_INR; lia).
  rewrite bernoulli_sum. assert (D : rsum n (fun s => ln (q (X s i)) - ln (c (X s i) / INR n)) <= 0).
  { apply Rle_trans with (rsum n (fun s => q (X s i) * INR n / c (X s i) - 1)).
    - apply rsum_le. intros s Hs. pose proof (Q _ (occ_In s Hs)) as P. pose proof (count_pos _ (occ_In s Hs)) as C.
      assert (0 < c (X s i) / INR n) by (apply Rdiv_lt_0_compat; lra).
      replace (ln (q (X s i)) - ln (c (X s i) / INR n)) with (ln (q (X s i) * INR n / c (X s i))).
      + apply ln_le_minus. apply Rdiv_lt_0_compat; [apply Rmult_lt_0_compat; assumption|lra].
      + replace (q (X s i) * INR n / c (X s i)) with (q (X s i) * / (c (X s i) / INR n)) by (field; lra). rewrite ln_mult, ln_Rinv; try assumption; [ring|apply Rinv_0_lt_compat; assumption].
    - rewrite rsum_minus, rsum_const. rewrite (sum_by_value (fun v => q v * INR n / c v)). rewrite (lsum_ext _ _ (fun v => INR n * q v)).
      + rewrite lsum_scal. assert (INR n * lsum occ q <= INR n * 1) by (apply Rmult_le_compat_l; lra). lra.
      + intros v Hv. pose proof (count_pos v Hv). field. lra. }
  rewrite rsum_minus in D. lra.
Qed.
Lemma count_le : forall v, c v <= INR n.
Proof. intro v. unfold c. apply le_INR. rewrite count_is. rewrite <- (seq_length n 0) at 2. rewrite <- (map_length (fun s => X s i)). apply count_occ_bound. Qed.
Lemma bernoulli_nonpos : bernoulli n X i <= 0.
Proof.
  rewrite bernoulli_sum. apply Rle_trans with (rsum n (fun _ => 0)); [|rewrite rsum_const; lra]. apply rsum_le. intros s Hs.
  assert (N : 0 < INR n) by (apply lt_0_INR; lia). pose proof (count_pos _ (occ_In s Hs)). pose proof (count_le (X s i)).
  apply Rle_trans with (c (X s i) / INR n - 1); [apply ln_le_minus, Rdiv_lt_0_compat; lra|].
  assert (c (X s i) / INR n <= 1); [|lra]. apply (Rmult_le_reg_r (INR n)); [exact N|]. unfold Rdiv. rewrite Rmult_assoc, Rinv_l by lra. lra.
Qed.
Lemma count_all : forall v, c v = INR n -> forall s, (s < n)%nat -> X s i = v.
Proof.
  intros v E s Hs. apply INR_eq in E. rewrite count_is in E.
  assert (G : forall l, count_occ Req_EM_T l v = length l -> forall y, In y l -> y = v).
  { induction l as [|a l IH]; intros H y Hy; [destruct Hy|]. cbn in H. destruct (Req_EM_T a v) as [Q|Q].
    - cbn in H. injection H as H. destruct Hy as [<-|Hy]; [exact Q|apply IH; assumption].
    - pose proof (count_occ_bound Req_EM_T v l). cbn in H. lia. }
  apply (G (map (fun s => X s i) (seq 0 n))); [rewrite map_length, seq_length; exact E|]. apply (in_map (fun s => X s i)). apply in_seq. lia.
Qed.
Lemma bernoulli_zero : bernoulli n X i = 0 <-> forall s t, (s < n)%nat -> (t < n)%nat -> X s i = X t i.
Proof.
  split.
  - intros H s t Hs Ht. assert (N : 0 < INR n) by (apply lt_0_INR; lia). rewrite bernoulli_sum in H.
    assert (Z : ln (c (X t i) / INR n) = 0).
    { assert (NP : forall s, (s < n)%nat -> 0 <= - ln (c (X s i) / INR n)).
      { intros r Hr. pose proof (count_pos _ (occ_In r Hr)). pose proof (count_le (X r i)).
        assert (ln (c (X r i) / INR n) <= c (X r i) / INR n - 1) by (apply ln_le_minus, Rdiv_lt_0_compat; lra).
        assert (c (X r i) / INR n <= 1); [|lra]. apply (Rmult_le_reg_r (INR n)); [exact N|]. unfold Rdiv. rewrite Rmult_assoc, Rinv_l by lra. lra. }
      pose proof (rsum_zero_all n (fun s => - ln (c (X s i) / INR n)) NP) as Q. rewrite rsum_opp, H in Q. specialize (Q ltac:(ring) t Ht). cbn beta in Q. lra. }
    pose proof (count_pos _ (occ_In t Ht)) as P. assert (E : c (X t i) / INR n = 1) by (apply ln_inv; [apply Rdiv_lt_0_compat; lra|lra|rewrite ln_1; exact Z]).
    apply (count_all (X t i)); [|exact Hs]. apply (f_equal (fun z => z * INR n)) in E. unfold Rdiv in E. rewrite Rmult_assoc, Rinv_l in E by lra. lra.
  - intro H. rewrite bernoulli_sum. apply rsum_0. intros s Hs. assert (N : 0 < INR n) by (apply lt_0_INR; lia).
    assert (E : c (X s i) = INR n).
    { pose proof (sum_by_value (fun v => if Req_EM_T v (X s i) then 1 else 0)) as S. cbn beta in S.
      rewrite (rsum_ext n _ (fun _ => 1)) in S by (intros t Ht; destruct (Req_EM_T (X t i) (X s i)) as [_|Q]; [reflexivity|exfalso; apply Q, H; assumption]).
      rewrite rsum_const in S. rewrite (lsum_ext _ _ (fun v => if Req_EM_T (X s i) v then c (X s i) else 0)) in S.
      - rewrite lsum_single in S; [lra|apply NoDup_nodup|apply occ_In; exact Hs].
      - intros v _. destruct (Req_EM_T v (X s i)) as [Q|Q]; destruct (Req_EM_T (X s i) v) as [Q'|Q']; try ring; [rewrite Q; ring|exfalso; apply Q'; symmetry; exact Q|exfalso; apply Q; symmetry; exact Q']. }
    rewrite E. replace (INR n / INR n) with 1 by (field; lra). apply ln_1.
Qed.
End Counts.
