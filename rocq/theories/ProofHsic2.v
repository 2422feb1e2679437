From Coq Require Import List Arith Bool ZArith QArith Qcanon Lia Permutation.
From Verif Require Import Prelude Spec SpecBootstrap Lib LibMat ModelRCD ProofRCD ModelBootstrap ProofBootstrap2 ModelHsic ProofHsic SpecHsic.
Import ListNotations.
Open Scope nat_scope.

Lemma qn_minus : forall n k, k < n -> (qn n - qn k)%Qc <> 0%Qc.
Proof.
  intros n k H E. assert (E' : qn n = qn k) by (rewrite <- (Qcplus_0_l (qn k)), <- E; ring).
  unfold qn, qz in E'. apply (f_equal this) in E'. cbn [this Q2Qc] in E'.
  assert (X : (inject_Z (Z.of_nat n) == inject_Z (Z.of_nat k))%Q) by (rewrite <- (Qred_correct (inject_Z (Z.of_nat n))), E', Qred_correct; reflexivity).
  unfold inject_Z, Qeq in X. cbn in X. lia.
Qed.
Lemma pair_mean_ext : forall n f g, (forall i j, i < n -> j < n -> f i j = g i j) -> pair_mean n f = pair_mean n g.
Proof.
  intros n f g H. unfold pair_mean. f_equal. apply sumn_ext. intros i Hi. apply sumn_ext. intros j Hj.
  destruct (i =? j); [reflexivity|apply H; assumption].
Qed.
Lemma centred_ext : forall n K K' i j, (forall i j, i < n -> j < n -> K i j = K' i j) -> i < n -> j < n -> centred n K i j = centred n K' i j.
Proof.
  intros n K K' i j H Hi Hj. unfold centred, mmul. apply sumn_ext. intros k Hk. f_equal. apply sumn_ext. intros a Ha. rewrite H by assumption. reflexivity.
Qed.
Lemma centre_centred : forall n K i j, i < n -> j < n -> centre n K i j = centred n K i j.
Proof. intros. rewrite centre_hmat by assumption. reflexivity. Qed.
Lemma off_pair_mean : forall n K, 2 <= n -> off_mean n K = pair_mean n K.
Proof.
  intros n K Hn. unfold off_mean, pair_mean. assert (N := qn_nz n ltac:(lia)). assert (N1 := qn_minus n 1 ltac:(lia)).
  change (qn 1) with 1%Qc in N1. field. auto.
Qed.
Lemma sum_offdiag : forall n (f : nat -> nat -> Qc),
  (sumn n (fun i => sumn n (fun j => f i j)) - sumn n (fun i => f i i))%Qc = sumn n (fun i => sumn n (fun j => if (i =? j)%nat then 0%Qc else f i j)).
Proof.
  intros n f. rewrite <- sumn_minus. apply sumn_ext. intros i Hi.
  rewrite (sumn_ext n (fun j => if i =? j then 0%Qc else f i j) (fun j => f i j - midn i j * f i j)%Qc).
  - rewrite sumn_minus. f_equal. fold (mmul n midn (fun j _ => f i j) i 0).
    change (sumn n (fun j => (midn i j * f i j)%Qc)) with (mmul n midn (fun j _ => f i j) i 0). rewrite mmul_id_l by exact Hi. reflexivity.
  - intros j _. unfold midn. destruct (i =? j); ring.
Qed.
Lemma h0_var_null : forall n K L, 4 <= n -> h0_var n (centre n K) (centre n L) = null_var n K L.
Proof.
  intros n K L Hn. unfold h0_var, null_var. cbv zeta.
  rewrite (sum_offdiag n (fun i j => (qf 1 6 * centre n K i j * centre n L i j * (qf 1 6 * centre n K i j * centre n L i j))%Qc)).
  rewrite (sumn_ext n _ (fun i => (qf 1 6 * qf 1 6) * sumn n (fun j => if (i =? j)%nat then 0 else
     (centred n K i j * centred n L i j) * (centred n K i j * centred n L i j)))%Qc).
  - rewrite sumn_scal. unfold pair_mean.
    assert (N := qn_nz n ltac:(lia)). assert (N1 := qn_minus n 1 ltac:(lia)). assert (N2 := qn_minus n 2 ltac:(lia)). assert (N3 := qn_minus n 3 ltac:(lia)).
    change (qn 1) with 1%Qc in N1. change (qn 2) with (qz 2) in N2. change (qn 3) with (qz 3) in N3.
    assert (E : (qz 72 * (qf 1 6 * qf 1 6) = qz 2)%Qc) by (apply Qc_is_canon; vm_compute; reflexivity).
    rewrite <- E. field. auto.
  - intros i Hi. rewrite <- sumn_scal. apply sumn_ext. intros j Hj. destruct (i =? j)%nat; [ring|].
    rewrite !centre_centred by assumption. ring.
Qed.

Lemma null_mean_ext : forall n K K' L L', (forall i j, K i j = K' i j) -> (forall i j, L i j = L' i j) -> null_mean n K L = null_mean n K' L'.
Proof. intros n K K' L L' A B. unfold null_mean. rewrite (pair_mean_ext n K K'), (pair_mean_ext n L L') by (intros; auto). reflexivity. Qed.
Lemma null_var_ext : forall n K K' L L', (forall i j, K i j = K' i j) -> (forall i j, L i j = L' i j) -> null_var n K L = null_var n K' L'.
Proof.
  intros n K K' L L' A B. unfold null_var. f_equal. apply pair_mean_ext. intros i j Hi Hj.
  rewrite (centred_ext n K K'), (centred_ext n L L') by auto. reflexivity.
Qed.
Lemma hsic_value_ext : forall n K K' L L', (forall i j, K i j = K' i j) -> (forall i j, L i j = L' i j) -> hsic_value n K L = hsic_value n K' L'.
Proof.
  intros n K K' L L' A B. unfold hsic_value, trace. f_equal. apply sumn_ext. intros i Hi. unfold mmul. apply sumn_ext. intros k Hk.
  rewrite A. f_equal. apply centred_ext; auto.
Qed.
Lemma gamma_formula : forall rexp sf bw n m1 m2 X Y wx wy, 4 <= n ->
  width2 bw n m1 X = Some wx -> wx <> 0%Qc -> width2 bw n m2 Y = Some wy -> wy <> 0%Qc ->
  let K i j := rexp (- (dist2 m1 X i j / (qz 2 * wx)))%Qc in
  let L i j := rexp (- (dist2 m2 Y i j / (qz 2 * wy)))%Qc in
  hsic_gamma rexp sf bw n m1 m2 X Y = Ok (Some (hsic_value n K L),
    if Qc_eq_dec (null_var n K L) 0 then None else if Qc_eq_dec (null_mean n K L) 0 then None
    else sf (hsic_value n K L) (null_mean n K L * null_mean n K L / null_var n K L)%Qc
            (null_var n K L * qn n / null_mean n K L)%Qc).
Proof.
  intros rexp sf bw n m1 m2 X Y wx wy Hn Wx Nx Wy Ny K L. unfold hsic_gamma.
  replace (n <=? 3) with false by (symmetry; apply Nat.leb_gt; lia). rewrite Wx, Wy. cbv zeta.
  assert (Z2 : qz 2 <> 0%Qc) by (intro E; apply (f_equal this) in E; discriminate).
  assert (EK : forall i j, rbf rexp m1 X wx i j = K i j).
  { intros i j. unfold rbf, K. rewrite sq_dist_squares. fold (dist2 m1 X i j). f_equal. field. auto. }
  assert (EL : forall i j, rbf rexp m2 Y wy i j = L i j).
  { intros i j. unfold rbf, L. rewrite sq_dist_squares. fold (dist2 m2 Y i j). f_equal. field. auto. }
  assert (ES : hsic_stat n (centre n (rbf rexp m1 X wx)) (centre n (rbf rexp m2 Y wy)) = hsic_value n K L).
  { rewrite stat_trace by lia. rewrite <- (hsic_value_ext n _ K _ L EK EL). unfold hsic_value, centred.
    change (hmat n) with (cmat n). unfold Qcdiv. rewrite Qcmult_1_l. apply Qcmult_comm. }
  assert (EV : h0_var n (centre n (rbf rexp m1 X wx)) (centre n (rbf rexp m2 Y wy)) = null_var n K L).
  { rewrite h0_var_null by exact Hn. apply null_var_ext; assumption. }
  assert (EM : h0_mean n (rbf rexp m1 X wx) (rbf rexp m2 Y wy) = null_mean n K L).
  { rewrite <- (null_mean_ext n _ K _ L EK EL). unfold h0_mean, null_mean. cbv zeta. rewrite !off_pair_mean by lia.
    unfold Qcdiv. ring. }
  rewrite ES, EV, EM. do 2 f_equal.
  destruct (Qc_eq_dec (null_var n K L) 0) as [->|DV]; [reflexivity|]. rewrite (proj2 (qeqb_neq _ _) DV). cbn [orb].
  destruct (Qc_eq_dec (null_mean n K L) 0) as [->|DM]; [reflexivity|]. rewrite (proj2 (qeqb_neq _ _) DM). reflexivity.
Qed.

Lemma upper_pairs : forall D l, upper D l = map (fun p => D (fst p) (snd p)) (pairs l).
Proof. intros D l. induction l as [|x l IH]; [reflexivity|]. cbn [upper pairs]. rewrite map_app, map_map, IH. reflexivity. Qed.
Lemma pairs_NoDup : forall l, NoDup l -> NoDup (pairs l).
Proof.
  induction l as [|x l IH]; intro H; [constructor|]. inversion H; subst. cbn [pairs]. apply NoDup_app_iff'. repeat split.
  - apply FinFun.Injective_map_NoDup; [intros a b E; inversion E; reflexivity|assumption].
  - apply IH. assumption.
  - intros [a b] I J. apply in_map_iff in I. destruct I as [y [E I]]. inversion E; subst.
    apply pairs_In in J; [|assumption]. destruct J as [u [v [w J]]]. apply H2. rewrite J. apply in_or_app. right. left. reflexivity.
Qed.
Lemma dist2_nz : forall m X i j, qltb 0 (dist2 m X i j) = true <-> dist2 m X i j <> 0%Qc.
Proof.
  intros m X i j. rewrite qltb_lt. assert (S := sq_dist_pos m X i j). rewrite sq_dist_squares in S. fold (dist2 m X i j) in S.
  split; [intros H E; rewrite E in H; discriminate|]. intro H.
  assert (G : forall k, (0 <= sumn k (fun a => (X i a - X j a) * (X i a - X j a)))%Qc).
  { induction k as [|k IH]; [apply Qcle_refl|]. rewrite sumn_S. assert (Q := Qcsq_nonneg (X i k - X j k)%Qc).
    set (u := sumn k _) in *. set (v := ((X i k - X j k) * (X i k - X j k))%Qc) in *. qclra. }
  specialize (G m). fold (dist2 m X i j) in G. destruct (Qcle_lt_or_eq _ _ G) as [A|A]; [exact A|congruence].
Qed.
Lemma width_median : forall n m X w, kernel_width2 n m X = Some w -> median_distance (Nat.min n 100) m X (qz 2 * w).
Proof.
  intros n m X w. unfold kernel_width2. replace (if 100 <? n then 100 else n) with (Nat.min n 100).
  2:{ destruct (100 <? n) eqn:E; [apply Nat.ltb_lt in E|apply Nat.ltb_ge in E]; lia. }
  set (N := Nat.min n 100). rewrite positive_dists_upper, upper_pairs.
  replace (filter pos (map (fun p => sq_dist m X (fst p) (snd p)) (pairs (seq 0 N))))
    with (map (fun p => dist2 m X (fst p) (snd p)) (filter (fun p => qltb 0 (dist2 m X (fst p) (snd p))) (pairs (seq 0 N)))).
  2:{ induction (pairs (seq 0 N)) as [|p r IH]; [reflexivity|]. cbn [map filter]. unfold pos at 1. rewrite sq_dist_squares.
      fold (dist2 m X (fst p) (snd p)). destruct (qltb 0 (dist2 m X (fst p) (snd p))); cbn [map]; rewrite IH; reflexivity. }
  set (idx := filter _ _). destruct (np_median _) as [q|] eqn:M; [|discriminate]. cbn [option_map]. intro E. inversion E; subst w.
  assert (Z : (qz 2 * (qf 1 2 * q))%Qc = q).
  { assert (U : (qz 2 * qf 1 2)%Qc = 1%Qc) by (apply Qc_is_canon; reflexivity). rewrite Qcmult_assoc, U. ring. }
  rewrite Z. exists idx. split; [apply NoDup_filter, pairs_NoDup, seq_NoDup|]. split.
  - intros i j. unfold idx. rewrite filter_In. cbn [fst snd]. rewrite dist2_nz. split.
    + intros [I D]. apply pairs_In in I; [|apply seq_NoDup]. apply seq_precedes in I. auto.
    + intros [I D]. split; [apply pairs_In_conv, seq_precedes; exact I|exact D].
  - destruct (np_median_spec (map (fun p => dist2 m X (fst p) (snd p)) idx)) as [v [Ev Mv]].
    + intro Nil. rewrite Nil in M. discriminate.
    + rewrite Ev in M. inversion M; subst. exact Mv.
Qed.
