(** * The checks of bootstrap_with_imputation, characterised *)
From Coq Require Import List Arith Bool ZArith QArith Qcanon Lia Permutation Sorted.
From Verif Require Import Prelude Spec Lib ModelBootstrap ProofBootstrap ProofBootstrap2 ModelHsic ProofHsic ModelTools ProofTools.
Import ListNotations.
Open Scope nat_scope.

Lemma strict_unique : forall l l' : list Qc, StronglySorted Qclt l -> StronglySorted Qclt l' -> (forall x, In x l <-> In x l') -> l = l'.
Proof.
  intros l. induction l as [|a l IH]; intros l' S S' H.
  - destruct l' as [|b l']; [reflexivity|]. exfalso. apply (proj2 (H b)). left. reflexivity.
  - destruct l' as [|b l']; [exfalso; apply (proj1 (H a)); left; reflexivity|].
    inversion S as [|? ? S1 F1]; subst. inversion S' as [|? ? S2 F2]; subst. rewrite Forall_forall in F1, F2.
    assert (a = b).
    { destruct (proj1 (H a) (or_introl eq_refl)) as [E|I]; [congruence|]. destruct (proj2 (H b) (or_introl eq_refl)) as [E|J]; [congruence|].
      exfalso. specialize (F2 a I). specialize (F1 b J). apply (Qclt_not_le _ _ F1). apply Qclt_le_weak. exact F2. }
    subst b. f_equal. apply IH; [assumption|assumption|]. intro x. split; intro I.
    + destruct (proj1 (H x) (or_intror I)) as [E|J]; [|exact J]. subst x. exfalso. exact (Qclt_not_eq _ _ (F1 a I) eq_refl).
    + destruct (proj2 (H x) (or_intror I)) as [E|J]; [|exact J]. subst x. exfalso. exact (Qclt_not_eq _ _ (F2 a I) eq_refl).
Qed.
Lemma dedup_strict : forall l, StronglySorted Qcle l -> StronglySorted Qclt (dedup l).
Proof.
  induction l as [|a l IH]; intro S; [constructor|]. inversion S as [|? ? S1 F1]; subst. destruct l as [|b l]; [repeat constructor|].
  change (dedup (a :: b :: l)) with (if qeqb a b then dedup (b :: l) else a :: dedup (b :: l)).
  destruct (qeqb a b) eqn:E; [apply IH; exact S1|]. constructor; [apply IH; exact S1|]. apply Forall_forall. intros x I. apply (proj1 (dedup_In _ _)) in I.
  apply qeqb_neq in E. rewrite Forall_forall in F1. assert (A := F1 b (or_introl eq_refl)).
  assert (a < b)%Qc by (destruct (Qclt_le_dec a b) as [L|L]; [exact L|]; exfalso; apply E; apply Qcle_antisym; assumption).
  destruct I as [<-|I]; [assumption|]. inversion S1 as [|? ? _ F2]; subst. rewrite Forall_forall in F2. eapply Qclt_le_trans; [eassumption|apply F2; exact I].
Qed.
Lemma arange_strict : forall n a, StronglySorted Qclt (map qn (seq a n)).
Proof.
  induction n as [|n IH]; intro a; [constructor|]. cbn [seq map]. constructor; [apply IH|]. apply Forall_forall. intros x I. apply in_map_iff in I.
  destruct I as (k & <- & I). apply in_seq in I. apply Qcnot_le_lt. intro H. apply qn_le in H. lia.
Qed.
Lemma unique_iff_set : forall l n, array_equal (np_unique l) (arange n) = true <-> (forall q, In q l <-> exists k, k < n /\ q = qn k).
Proof.
  intros l n. rewrite array_equal_eq. assert (R : forall q, In q (arange n) <-> exists k, k < n /\ q = qn k).
  { intro q. unfold arange. rewrite in_map_iff. split; intros (k & A & B).
    - apply in_seq in B. exists k. split; [lia|auto].
    - exists k. split; [auto|apply in_seq; lia]. }
  split.
  - intros E q. rewrite <- R, <- E. symmetry. apply np_unique_In.
  - intro H. apply strict_unique; [unfold np_unique; apply dedup_strict, sort_q_sorted|apply arange_strict|].
    intro x. rewrite np_unique_In, H. symmetry. apply R.
Qed.

Lemma indices_In : forall s ix, In ix (indices s) <-> Forall2 lt ix s.
Proof.
  induction s as [|k s IH]; intro ix; cbn [indices].
  - split; [intros [<-|[]]; constructor|]. intro H. inversion H. left. reflexivity.
  - rewrite in_flat_map. split.
    + intros (i & I & H). apply in_seq in I. apply in_map_iff in H. destruct H as (r & <- & H). constructor; [lia|]. apply IH. exact H.
    + intro H. inversion H as [|i ? r ? L F]; subst. exists i. split; [apply in_seq; lia|]. apply in_map_iff. exists r. split; [reflexivity|]. apply IH. exact F.
Qed.
Lemma adj_finite_iff : forall a, adj_finite a = true <->
  forall ix i j, Forall2 lt ix (ao_pre a) -> i < ao_rows a -> j < ao_cols a -> ao_val a ix i j <> None.
Proof.
  intro a. unfold adj_finite. rewrite forallb_forall. split.
  - intros H ix i j F Hi Hj. apply indices_In in F. specialize (H ix F). rewrite forallb_forall in H.
    specialize (H i ltac:(apply in_seq; lia)). rewrite forallb_forall in H. specialize (H j ltac:(apply in_seq; lia)). destruct (ao_val a ix i j); [discriminate|discriminate H].
  - intros H ix I. apply indices_In in I. apply forallb_forall. intros i Hi. apply forallb_forall. intros j Hj. apply in_seq in Hi. apply in_seq in Hj.
    specialize (H ix i j I ltac:(lia) ltac:(lia)). destruct (ao_val a ix i j); [reflexivity|congruence].
Qed.
Lemma all_nums : forall l, forallb is_num l = true <-> ~ In None l.
Proof.
  intro l. rewrite forallb_forall. split.
  - intros H I. specialize (H None I). discriminate.
  - intros H x I. destruct x; [reflexivity|contradiction].
Qed.
Lemma nan_to_num_In : forall l q, ~ In None l -> (In q (map nan_to_num l) <-> In (Some q) l).
Proof.
  intros l q N. rewrite in_map_iff. split.
  - intros (x & E & I). destruct x as [v|]; [|contradiction]. cbn in E. subst. exact I.
  - intro I. exists (Some q). split; [reflexivity|exact I].
Qed.
