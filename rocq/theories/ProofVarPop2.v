(** * VARLiNGAM on data from a structural vector autoregression: the fitted object *)
From Coq Require Import List Arith Bool ZArith QArith Qcanon Lia Permutation Relations.
From Verif Require Import Prelude Spec Lib LibMat SpecDirect SpecPop SpecVarPop ModelPaths ModelDirect ProofDirect ProofDirect2 ModelTotal ProofEffect
  ProofPop ProofPop2 ProofPop3 ModelVAR ProofVAR ModelVarPop ProofVarPop Props_VAR.
Import ListNotations.
Open Scope nat_scope.

Lemma linear_model_ext : forall N n B e x x', (forall i r, i < n -> r < N -> x i r = x' i r) -> linear_model N n B e x -> linear_model N n B e x'.
Proof.
  intros N n B e x x' H M. constructor; try apply M. intros i r Hi Hr. rewrite <- (H i r Hi Hr), (lm_equation N n B e x M i r Hi Hr). f_equal.
  apply sumn_ext. intros j Hj. rewrite (H j r Hj Hr). reflexivity.
Qed.
Lemma sumn_rev : forall N (f : nat -> Qc), sumn N (fun r => f (N - 1 - r)) = sumn N f.
Proof.
  intros N f. induction N as [|N IH]; [reflexivity|]. rewrite sumn_shift, sumn_S, <- IH.
  rewrite (sumn_ext N (fun k => f (S N - 1 - S k)) (fun r => f (N - 1 - r))) by (intros k Hk; f_equal; lia).
  replace (S N - 1 - 0) with N by lia. ring.
Qed.
Lemma mean_rev : forall N x, mean N (fun r => x (N - 1 - r)) = mean N x.
Proof. intros. unfold mean. rewrite sumn_rev. reflexivity. Qed.
Lemma cov_rev : forall N x y, cov N (fun r => x (N - 1 - r)) (fun r => y (N - 1 - r)) = cov N x y.
Proof. intros N x y. unfold cov. rewrite !mean_rev. rewrite (sumn_rev N (fun r => (x r - mean N x) * (y r - mean N y))%Qc). reflexivity. Qed.

(** The design of the pruning regression at time [t], as in C43. *)
Definition design_row (n p : nat) (X : series) (anc : list nat) (t : nat) : list Qc :=
  map (X t) anc ++ flat_map (fun k => map (X (t - k)) (seq 0 n)) (seq 1 p).
Definition prune_least_squares (N n p : nat) (X : series) (lasso : lasso_fn) : Prop :=
  forall i anc, i < n -> NoDup anc -> (forall a, In a anc -> a < n /\ a <> i) ->
  let times := map (fun r => N - 1 - r) (seq 0 (N - p)) in
  least_squares (N - p) (fun q r => nth q (design_row n p X anc (N - 1 - r)) 0%Qc) (fun r => X (N - 1 - r) i)
    (seq 0 (length anc + n * p)) (lasso (map (design_row n p X anc) times) (map (fun t => X t i) times)).

Section Prune.
  Variables (N n p : nat) (X : series).
  Lemma row_sum : forall anc (coef : nat -> Qc) r, NoDup anc ->
    sumf (seq 0 (length anc + n * p)) (fun q => coef q * nth q (design_row n p X anc (r + p)) 0)%Qc =
    (sumf anc (fun a => (match index_of a anc with Some q => coef q | None => 0 end) * X (r + p)%nat a) +
     past_sum n p X (fun k j => coef (length anc + n * k + j)%nat) r)%Qc.
  Proof.
    intros anc coef r ND. rewrite seq_app, sumf_app. cbn [Nat.add]. f_equal.
    - assert (G : forall l1 l2, anc = l1 ++ l2 -> sumf (seq (length l1) (length l2)) (fun q => coef q * nth q (design_row n p X anc (r + p)) 0)%Qc =
         sumf l2 (fun a => (match index_of a anc with Some q => coef q | None => 0 end) * X (r + p)%nat a)%Qc).
      { intros l1 l2. revert l1. induction l2 as [|a l2 IH]; intros l1 E; [reflexivity|]. cbn [length seq]. rewrite !sumf_cons.
        assert (Na : nth_error anc (length l1) = Some a) by (rewrite E, nth_error_app2, Nat.sub_diag by lia; reflexivity).
        rewrite (index_of_NoDup anc (length l1) a ND Na). f_equal.
        - f_equal. unfold design_row. rewrite app_nth1 by (rewrite map_length, E, app_length; cbn; lia).
          apply nth_error_nth. rewrite nth_error_map, Na. reflexivity.
        - replace (S (length l1)) with (length (l1 ++ [a])) by (rewrite app_length; cbn; lia). apply IH. rewrite <- app_assoc. exact E. }
      apply (G [] anc eq_refl).
    - unfold past_sum.
      assert (ROW : forall k j, k < p -> j < n -> nth (length anc + n * k + j) (design_row n p X anc (r + p)) 0%Qc = past p X k j r).
      { intros k j Hk Hj. apply nth_error_nth.
        pose proof (design_lag n p X anc (r + p) (k + 1) j) as Q. replace (k + 1 - 1) with k in Q by lia.
        change (design_row n p X anc (r + p)) with (design n p X anc (r + p)). rewrite Q by lia. reflexivity. }
      assert (G : forall m, m <= p -> sumf (seq (length anc) (n * m)) (fun q => coef q * nth q (design_row n p X anc (r + p)) 0)%Qc =
         sumn m (fun k => sumn n (fun j => coef (length anc + n * k + j)%nat * past p X k j r))%Qc).
      { induction m as [|m IH]; intro Hm; [rewrite Nat.mul_0_r; reflexivity|].
        replace (n * S m) with (n * m + n) by lia. rewrite seq_app, sumf_app, sumn_S, IH by lia. f_equal.
        assert (SH : forall b s (f : nat -> Qc), sumf (seq s b) f = sumn b (fun j => f (s + j)%nat)).
        { induction b as [|b IHb]; intros s f; [reflexivity|]. rewrite sumn_shift. cbn [seq]. rewrite sumf_cons, IHb, Nat.add_0_r. f_equal. apply sumn_ext. intros j _. f_equal. lia. }
        rewrite SH. apply sumn_ext. intros j Hj. rewrite (ROW m j) by lia. reflexivity. }
      apply (G p (le_n p)).
  Qed.
End Prune.

Definition var_spec_fit (N n p : nat) (X : series) (Ms : list (mat Qc)) (R : series) : Prop :=
  length Ms = p /\ var_least_squares N n p X (fun k => nth k Ms zmat) /\
  forall r i, r < N - p -> i < n -> R r i = (X (r + p)%nat i - past_sum n p X (fun k j => nth k Ms zmat i j) r)%Qc.

Lemma var_fit_correct : forall N n p B e X est score ms lassoD lasso prune o,
  1 <= p -> var_model N n p B e X -> vo_ar o = None -> vo_lags o = p ->
  (let '(Ms, R) := est N X p in var_spec_fit N n p X Ms R /\ exact_regression (N - p) n (fun i r => R r i) (lassoD (N - p) R)) ->
  separates (better ms) (N - p) n (B 0) e (score (N - p)) ->
  (prune = true -> prune_least_squares N n p X lasso) ->
  exists o' K Bs, var_fit est (direct_on_rows score ms lassoD n) lasso n prune o N X = Ok (o', (K, Bs)) /\
    is_order n K /\ topological (edge_of n (B 0)) K /\ length Bs = p + 1 /\ vo_lags o' = p /\
    forall k i j, k <= p -> i < n -> j < n -> nth k Bs zmat i j = B k i j.
Proof.
  intros N n p B e X est score ms lassoD lasso prune o Hp VM Ho Hl HE SEP PR.
  unfold var_fit. rewrite Ho, Hl. destruct (est N X p) as [Ms R]. destruct HE as ((LM & OLS & HR) & REG).
  assert (MOD : linear_model (N - p) n (B 0) e (fun i r => R r i)).
  { apply (linear_model_ext _ _ _ _ (resid n p X (fun k => nth k Ms zmat))); [intros i r Hi Hr; unfold resid; symmetry; apply HR; assumption|].
    apply (resid_model N n p B e X VM _ OLS). }
  rewrite LM. unfold direct_on_rows.
  destruct (topo_exists (edge_of n (B 0)) n (edge_of_dec n (B 0)) (vm_acyclic N n p B e X VM)) as (l & OL & TL).
  assert (TL' : topological (edge_of n (B 0)) l) by (intros a b E; apply TL; [apply E|apply E|exact E]).
  destruct (direct_fit_correct (N - p) n (B 0) e (fun i r => R r i) ms (score (N - p)) (lassoD (N - p) R) true NoPK l MOD SEP REG OL TL' Logic.I) as (K & A & E & OK & TK & EA); [discriminate|].
  rewrite E. set (B0 := fun i j => nan_to_num (A i j)).
  assert (EB0 : forall i j, i < n -> j < n -> B0 i j = B 0 i j) by (intros i j Hi Hj; unfold B0; rewrite (EA i j Hi Hj); reflexivity).
  assert (LB : length (calc_b n B0 Ms) = p + 1) by (unfold calc_b; cbn [length]; rewrite map_length, LM; lia).
  assert (EB : forall k i j, k <= p -> i < n -> j < n -> nth k (calc_b n B0 Ms) zmat i j = B k i j).
  { intros [|k] i j Hk Hi Hj; unfold calc_b; cbn [nth]; [apply EB0; assumption|].
    rewrite (nth_indep _ zmat (mmul n (msub midn B0) zmat)) by (rewrite map_length; lia).
    rewrite (map_nth (fun M => mmul n (msub midn B0) M)).
    replace (S k) with (k + 1) by lia. rewrite <- (lag_exact N n p B e X VM (fun k => nth k Ms zmat) OLS i k j Hi ltac:(lia) Hj).
    unfold mmul. apply sumn_ext. intros l0 Hl0. unfold msub. rewrite (EB0 i l0 Hi Hl0). reflexivity. }
  destruct prune.
  - destruct (C43_pruning_alignment lasso N n p X K (calc_b n B0 Ms) Hp ltac:(discriminate) ltac:(lia) OK) as (Bs' & EP & LB' & PA).
    rewrite EP. cbn [bind]. do 3 eexists. split; [reflexivity|]. split; [exact OK|]. split; [exact TK|]. split; [congruence|]. split; [reflexivity|].
    intros k i j Hk Hi Hj. destruct (PA i Hi) as (no & Hno & PI). cbv zeta in PI.
    pose proof (nth_error_split K no Hno) as (l1 & l2 & EK & L1).
    assert (F1 : firstn no K = l1) by (rewrite EK, firstn_app, L1, Nat.sub_diag, <- L1, firstn_all, app_nil_r; reflexivity). rewrite F1 in PI.
    assert (NDK : NoDup K) by (apply (Permutation_NoDup (Permutation_sym OK)), seq_NoDup).
    assert (IK : forall q, In q K -> q < n) by (intros q Hq; apply (Permutation_in _ OK) in Hq; apply in_seq in Hq; lia).
    assert (ND1 : NoDup l1) by (rewrite EK in NDK; apply NoDup_app_l in NDK; exact NDK).
    assert (A1 : forall a, In a l1 -> a < n /\ a <> i).
    { intros a Ha. split; [apply IK; rewrite EK; apply in_app_iff; left; exact Ha|]. intros ->. rewrite EK in NDK. apply NoDup_remove_2 in NDK. apply NDK, in_app_iff. left. exact Ha. }
    pose proof (PR eq_refl i l1 Hi ND1 A1) as LS. cbv zeta in LS.
    destruct PI as (_ & PI0 & PIN & PIK).
    set (coef := lasso (map (design_row n p X l1) (map (fun r => N - 1 - r) (seq 0 (N - p)))) (map (fun t => X t i) (map (fun r => N - 1 - r) (seq 0 (N - p))))) in *.
    change (fun t : nat => map (X t) l1 ++ flat_map (fun k0 : nat => map (X (t - k0)) (seq 0 n)) (seq 1 p)) with (design_row n p X l1) in PI0, PIK.
    fold coef in PI0, PIK.
    (* the normal equations at the rows in time order *)
    assert (NP : N - p > 0) by (apply (rows_pos N n p B e X VM i Hi)).
    set (ca := fun a => match index_of a l1 with Some q => coef q | None => 0%Qc end).
    set (cl := fun k j => coef (length l1 + n * k + j)).
    set (res := fun r => (now p X i r - sumf l1 (fun a => ca a * now p X a r) - past_sum n p X cl r)%Qc).
    assert (LS' : forall q (col : sample), q < length l1 + n * p -> (forall r, r < N - p -> nth q (design_row n p X l1 (r + p)) 0%Qc = col r) -> cov (N - p) res col = 0%Qc).
    { intros q col Hq Hcol. specialize (LS q ltac:(apply in_seq; lia)). rewrite <- LS.
      rewrite <- (cov_rev (N - p) res col). apply cov_ext; intros r Hr.
      - unfold res, now. replace (N - 1 - r) with (N - p - 1 - r + p) by lia. rewrite (row_sum n p X l1 coef (N - p - 1 - r) ND1). unfold ca, cl. ring.
      - rewrite <- Hcol by lia. replace (N - p - 1 - r + p) with (N - 1 - r) by lia. reflexivity. }
    destruct (prune_exact N n p B e X VM (fun k => nth k Ms zmat) OLS K OK TK l1 i l2 ca cl EK) as [QA QL].
    { cbv zeta. fold res. split.
      - intros a Ha. destruct (In_nth_error l1 a Ha) as [q Hq].
        assert (Lq : q < length l1) by (apply nth_error_Some; congruence).
        apply (LS' q); [lia|]. intros r Hr. apply nth_error_nth. apply (design_anc n p X l1 (r + p) q a Hq).
      - intros k0 j0 Hk0 Hj0. apply (LS' (length l1 + n * k0 + j0)).
        + assert (n * k0 + n <= n * p) by (replace (n * k0 + n) with (n * S k0) by lia; apply Nat.mul_le_mono_l; lia). lia.
        + intros r Hr. apply nth_error_nth. pose proof (design_lag n p X l1 (r + p) (k0 + 1) j0 ltac:(lia) ltac:(lia) Hj0) as Q.
          replace (k0 + 1 - 1) with k0 in Q by lia. exact Q. }
    destruct k as [|k].
    + destruct (in_dec Nat.eq_dec j l1) as [I|I].
      * destruct (In_nth_error l1 j I) as [q Hq]. destruct (PI0 q j Hq) as [-> _]. rewrite <- (QA j I). unfold ca. rewrite (index_of_NoDup l1 q j ND1 Hq). reflexivity.
      * rewrite (PIN j I). apply (EB 0 i j); lia.
    + destruct (PIK (S k) j ltac:(lia) ltac:(lia) Hj) as [-> _]. replace (S k) with (k + 1) by lia. rewrite <- (QL k j ltac:(lia) Hj). unfold cl. f_equal. lia.
  - cbn [bind]. do 3 eexists. split; [reflexivity|]. split; [exact OK|]. split; [exact TK|]. split; [exact LB|]. split; [reflexivity|exact EB].
Qed.
