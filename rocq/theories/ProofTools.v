(** * Lemmas about the model of bootstrap_with_imputation *)
From Coq Require Import List Arith Bool ZArith QArith Qcanon Lia Permutation Sorted.
From Verif Require Import Prelude Spec Lib ModelBootstrap ProofBootstrap ModelHsic ProofHsic ModelTools.
Import ListNotations.
Open Scope nat_scope.

Lemma array_equal_eq : forall l l', array_equal l l' = true <-> l = l'.
Proof.
  induction l as [|x l IH]; intros [|y l']; cbn [array_equal]; try (split; [discriminate|discriminate]); [tauto|].
  rewrite andb_true_iff, IH, qeqb_eq. split; [intros [-> ->]; reflexivity|]. intro H. injection H as -> ->. tauto.
Qed.
Lemma dedup_In : forall l x, In x (dedup l) <-> In x l.
Proof.
  induction l as [|a l IH]; intro x; [tauto|]. destruct l as [|b l]; [tauto|].
  change (dedup (a :: b :: l)) with (if qeqb a b then dedup (b :: l) else a :: dedup (b :: l)).
  destruct (qeqb a b) eqn:E.
  - apply qeqb_eq in E. subst b. rewrite IH. cbn [In]. tauto.
  - cbn [In] in *. rewrite IH. cbn [In]. tauto.
Qed.
Lemma np_unique_In : forall l x, In x (np_unique l) <-> In x l.
Proof. intros. unfold np_unique. rewrite dedup_In. apply sort_In. Qed.
Lemma qn_inj : forall a b, qn a = qn b -> a = b.
Proof. intros a b H. assert (A : a <= b) by (apply qn_le; rewrite H; apply Qcle_refl). assert (B : b <= a) by (apply qn_le; rewrite H; apply Qcle_refl). lia. Qed.
Lemma arange_NoDup : forall n, NoDup (arange n).
Proof. intro n. unfold arange. apply FinFun.Injective_map_NoDup; [intros a b; apply qn_inj|apply seq_NoDup]. Qed.
Lemma arange_length : forall n, length (arange n) = n.
Proof. intro n. unfold arange. rewrite map_length, seq_length. reflexivity. Qed.
(** [arange] is already sorted and without repetitions. *)
Lemma sort_seq : forall k a, sort_q (map qn (seq a k)) = map qn (seq a k).
Proof.
  induction k as [|k IH]; intro a; [reflexivity|]. cbn [seq map]. unfold sort_q in *. cbn [fold_right]. rewrite IH.
  destruct k as [|k]; [reflexivity|]. cbn [seq map insert_q].
  replace (qleb (qn a) (qn (S a))) with true; [reflexivity|]. symmetry. apply qleb_le, qn_le. lia.
Qed.
Lemma dedup_seq : forall k a, dedup (map qn (seq a k)) = map qn (seq a k).
Proof.
  induction k as [|k IH]; intro a; [reflexivity|]. destruct k as [|k]; [reflexivity|]. specialize (IH (S a)).
  change (map qn (seq a (S (S k)))) with (qn a :: qn (S a) :: map qn (seq (S (S a)) k)).
  change (dedup (qn a :: qn (S a) :: map qn (seq (S (S a)) k))) with
    (if qeqb (qn a) (qn (S a)) then dedup (map qn (seq (S a) (S k))) else qn a :: dedup (map qn (seq (S a) (S k)))).
  rewrite IH. destruct (qeqb (qn a) (qn (S a))) eqn:E; [|reflexivity]. apply qeqb_eq, qn_inj in E. lia.
Qed.
Lemma unique_iff_perm : forall l n, length l = n -> (array_equal (np_unique l) (arange n) = true <-> Permutation l (arange n)).
Proof.
  intros l n L. rewrite array_equal_eq. split; intro H.
  - apply Permutation_sym. apply NoDup_Permutation_bis; [apply arange_NoDup|rewrite arange_length; lia|].
    intros x Hx. apply np_unique_In. rewrite H. exact Hx.
  - unfold np_unique. rewrite (sort_perm _ _ H). unfold arange. rewrite sort_seq, dedup_seq. reflexivity.
Qed.

Lemma all3_true : forall k r c P, all3 k r c P = true <-> (forall a b d, a < k -> b < r -> d < c -> P a b d = true).
Proof.
  intros k r c P. unfold all3. rewrite forallb_forall. split.
  - intros H a b d Ha Hb Hd. specialize (H a (proj2 (in_seq _ _ _) (conj (Nat.le_0_l a) Ha))). rewrite forallb_forall in H.
    specialize (H b (proj2 (in_seq _ _ _) (conj (Nat.le_0_l b) Hb))). rewrite forallb_forall in H. apply H. apply in_seq. lia.
  - intros H a Ha. apply forallb_forall. intros b Hb. apply forallb_forall. intros d Hd. apply in_seq in Ha, Hb, Hd. apply H; lia.
Qed.
Lemma run_all_spec : forall draw imp cd n p X l r, run_all draw imp cd n p X l = Ok r ->
  length r = length l /\ forall k, k < length l -> exists it, nth_error r k = Some it /\ iterate draw imp cd n p X (nth k l 0) = Ok it.
Proof.
  intros draw imp cd n p X l. induction l as [|s l IH]; intros r H; cbn [run_all] in H.
  - injection H as <-. split; [reflexivity|]. intros k Hk. cbn in Hk. lia.
  - destruct (iterate draw imp cd n p X s) as [it|e] eqn:E; cbn [bind] in H; [|discriminate].
    destruct (run_all draw imp cd n p X l) as [r'|e] eqn:R; cbn [bind] in H; [|discriminate]. injection H as <-.
    destruct (IH r' eq_refl) as [L S]. cbn [length]. split; [lia|]. intros [|k] Hk; cbn [nth_error nth].
    + exists it. split; [reflexivity|exact E].
    + apply S. lia.
Qed.
Lemma boot_spec : forall draw imp cd n p X N r, boot_imp draw imp cd n p X N = Ok r ->
  1 <= N /\ length r = N /\ (forall s, s < N -> exists it, nth_error r s = Some it /\ iterate draw imp cd n p X s = Ok it) /\
  (forall a b, In a r -> In b r -> ao_pre (it_adj a) = ao_pre (it_adj b) /\ it_reps a = it_reps b).
Proof.
  intros draw imp cd n p X N r H. unfold boot_imp in H. destruct (Nat.eqb_spec N 0) as [->|HN]; [discriminate|].
  destruct (run_all draw imp cd n p X (seq 0 N)) as [l|e] eqn:E; cbn [bind] in H; [|discriminate].
  destruct (run_all_spec _ _ _ _ _ _ _ _ E) as [L S]. rewrite seq_length in L, S.
  destruct l as [|it0 l]; [cbn in L; lia|]. destruct (forallb (same_shapes it0) l) eqn:F; [|discriminate]. injection H as <-.
  split; [lia|]. split; [exact L|]. split.
  - intros s Hs. destruct (S s Hs) as (it & A & B). rewrite seq_nth in B by exact Hs. exists it. split; [exact A|exact B].
  - assert (G : forall b, In b (it0 :: l) -> ao_pre (it_adj it0) = ao_pre (it_adj b) /\ it_reps it0 = it_reps b).
    { intros b [<-|Hb]; [tauto|]. rewrite forallb_forall in F. specialize (F b Hb). unfold same_shapes in F.
      apply andb_true_iff in F. destruct F as [F F3]. apply andb_true_iff in F. destruct F as [F1 _].
      destruct (list_eq_dec Nat.eq_dec (ao_pre (it_adj it0)) (ao_pre (it_adj b))); [|discriminate]. apply Nat.eqb_eq in F3. tauto. }
    intros a b Ha Hb. destruct (G a Ha), (G b Hb). split; congruence.
Qed.
Lemma iterate_spec : forall draw imp cd n p X s it, iterate draw imp cd n p X s = Ok it ->
  exists v, imp s (fun r c => X (draw s r) c) = Arr3 (it_reps it) n p v /\ 1 <= it_reps it /\
    (forall k r c, k < it_reps it -> r < n -> c < p -> v k r c = Some (it_data it k r c)) /\
    it_index it = draw s /\
    (forall k r c, it_imp it k r c = match X (draw s r) c with None => Some (it_data it k r c) | Some _ => None end) /\
    check_cd (cd s (fun r c => X (draw s r) c) (it_reps it) (it_data it)) (it_reps it) p = Ok (it_order it, it_adj it).
Proof.
  intros draw imp cd n p X s it H. unfold iterate in H. destruct (imp s (fun r c => X (draw s r) c)) as [k r c v|]; cbn [check_imputer bind] in H; [|discriminate].
  destruct (all3 k r c (fun a b d => is_num (v a b d))) eqn:E1; cbn [negb bind] in H; [|discriminate].
  destruct (Nat.eqb_spec k 0) as [->|Hk]; cbn [bind] in H; [discriminate|].
  destruct ((r =? n) && (c =? p)) eqn:E2; cbn [negb bind] in H; [|discriminate].
  apply andb_true_iff in E2. destruct E2 as [E2 E3]. apply Nat.eqb_eq in E2, E3. subst r c.
  destruct (check_cd _ k p) as [[o a]|e] eqn:E4; cbn [bind] in H; [|discriminate]. injection H as <-. cbn.
  exists v. split; [reflexivity|]. split; [lia|]. split; [|split; [reflexivity|split; [reflexivity|exact E4]]].
  intros k' r' c' A B C. rewrite all3_true in E1. specialize (E1 k' r' c' A B C). destruct (v k' r' c'); [reflexivity|discriminate].
Qed.
