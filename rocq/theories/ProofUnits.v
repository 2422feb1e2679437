(** * Proofs: residuals in other units *)
From Coq Require Import List Arith Bool ZArith QArith Qcanon Lia Permutation.
From Verif Require Import Prelude Spec SpecPop SpecRCDPop SpecUnits Lib LibMat ProofLim ProofPop.
Import ListNotations.
Open Scope nat_scope.

Lemma var_zero_const : forall N x, 0 < N -> var N x = 0%Qc -> forall r, r < N -> x r = mean N x.
Proof.
  intros N x HN H r Hr. unfold var, cov in *.
  assert (NZ : qn N <> 0%Qc) by (apply qn_nonzero; exact HN).
  assert (S : sumn N (fun r => (x r - mean N x) * (x r - mean N x))%Qc = 0%Qc).
  { transitivity ((sumn N (fun r => (x r - mean N x) * (x r - mean N x)) / qn N) * qn N)%Qc; [field; exact NZ|rewrite H; ring]. }
  assert (Q : ((x r - mean N x) * (x r - mean N x) = 0)%Qc).
  { apply (sumf_nonneg_zero nat (fun r => (x r - mean N x) * (x r - mean N x))%Qc (seq 0 N)); [intros; apply Qcsq_nonneg|exact S|apply in_seq; lia]. }
  assert (D : (x r - mean N x = 0)%Qc) by (apply Qcmult_integral in Q; destruct Q; assumption).
  transitivity (x r - mean N x + mean N x)%Qc; [ring|rewrite D; ring].
Qed.
Lemma rearranges_range : forall N s r, rearranges N s -> r < N -> s r < N.
Proof. intros N s r H Hr. assert (I : In (s r) (seq 0 N)) by (apply (Permutation_in _ H); apply in_map; apply in_seq; lia). apply in_seq in I. lia. Qed.
Lemma rearranges_sum : forall N s h, rearranges N s -> sumn N (fun r => h (s r)) = sumn N h.
Proof. intros N s h H. unfold sumn. rewrite <- (sumf_perm _ h _ _ H). unfold sumf. rewrite map_map. reflexivity. Qed.
Lemma rearranges_onto : forall N s, rearranges N s -> forall r, r < N -> exists q, q < N /\ s q = r.
Proof. intros N s H r Hr. assert (I : In r (map s (seq 0 N))) by (apply (Permutation_in _ (Permutation_sym H)); apply in_seq; lia). apply in_map_iff in I. destruct I as (q & E & Q). apply in_seq in Q. exists q. split; [lia|exact E]. Qed.
Lemma mean_rows : forall N s x, rearranges N s -> mean N (fun r => x (s r)) = mean N x.
Proof. intros N s x H. unfold mean. rewrite (rearranges_sum N s x H). reflexivity. Qed.
Lemma cov_rows : forall N s x y, rearranges N s -> cov N (fun r => x (s r)) (fun r => y (s r)) = cov N x y.
Proof.
  intros N s x y H. unfold cov. rewrite (mean_rows N s x H), (mean_rows N s y H). f_equal. apply (rearranges_sum N s (fun r => (x r - mean N x) * (y r - mean N y))%Qc H).
Qed.
Lemma cov_shift : forall N x c z, 0 < N -> cov N (fun r => x r + c)%Qc z = cov N x z.
Proof.
  intros N x c z HN. rewrite cov_plus. replace (cov N (fun _ => c) z) with 0%Qc; [ring|]. symmetry. apply var_zero; [exact HN|]. unfold var, cov.
  assert (M : mean N (fun _ => c) = c). { unfold mean. replace (sumn N (fun _ => c)) with (c * qn N)%Qc; [field; apply qn_nonzero; exact HN|]. symmetry. rewrite (sumn_ext N _ (fun _ => c * 1)%Qc) by (intros; ring). rewrite sumn_scal. f_equal. apply sumn_one. }
  rewrite sumn_zero; [unfold Qcdiv; ring|]. intros r _. rewrite M. ring.
Qed.
Lemma cov_in_unit : forall N s a b a' b' x y x' y', 0 < N -> rearranges N s -> in_unit N s a b x y -> in_unit N s a' b' x' y' -> cov N y y' = (a * a' * cov N x x')%Qc.
Proof.
  intros N s a b a' b' x y x' y' HN HS H H'. rewrite (cov_ext N y (fun r => a * x (s r) + b)%Qc y' (fun r => a' * x' (s r) + b')%Qc H H').
  rewrite (cov_shift N (fun r => a * x (s r))%Qc b) by exact HN. rewrite cov_sym, (cov_shift N (fun r => a' * x' (s r))%Qc b') by exact HN. rewrite cov_scal, cov_sym, cov_scal, (cov_rows N s x x' HS). ring.
Qed.

(** Two residuals of least-squares regressions in different units. *)
Lemma residual_units : forall N s a Y Y' i ps c c', 0 < N -> rearranges N s -> same_data N s a Y Y' ->
  least_squares N Y (Y i) ps c -> least_squares N Y' (Y' i) ps c' ->
  exists b, in_unit N s (a i) b (fun r => Y i r - sumf ps (fun p => c p * Y p r))%Qc (fun r => Y' i r - sumf ps (fun p => c' p * Y' p r))%Qc.
Proof.
  intros N s a Y Y' i ps c c' HN HS SD L L'.
  set (U := (fun r => Y i r - sumf ps (fun p => c p * Y p r))%Qc). set (U' := (fun r => Y' i r - sumf ps (fun p => c' p * Y' p r))%Qc).
  set (D := (fun r => U' r - a i * U (s r))%Qc).
  assert (IU : in_unit N s 1 0 U (fun r => U (s r))) by (intros r _; ring).
  assert (LU : forall q, In q ps -> cov N U (Y q) = 0%Qc) by exact L. assert (LU' : forall q, In q ps -> cov N U' (Y' q) = 0%Qc) by exact L'.
  assert (CD : forall q, In q ps -> cov N D (Y' q) = 0%Qc).
  { intros q Hq. unfold D. rewrite (cov_minus N U' (fun r => a i * U (s r))%Qc), (LU' q Hq), cov_scal.
    destruct (SD q) as (_ & b & Hb). rewrite (cov_in_unit N s 1 0 (a q) b U _ (Y q) (Y' q) HN HS IU Hb), (LU q Hq). ring. }
  destruct (SD i) as (_ & bi & Hbi).
  assert (ED : exists k, forall r, r < N -> D r = (k + sumf ps (fun p => (a i * c p / a p - c' p) * Y' p r))%Qc).
  { assert (Q : exists k, forall r, r < N -> (a i * sumf ps (fun p => c p * Y p (s r)) = k + sumf ps (fun p => a i * c p / a p * Y' p r))%Qc).
    { clear -SD. induction ps as [|p ps (k & IH)]; [exists 0%Qc; intros; rewrite !sumf_nil; ring|]. destruct (SD p) as (Np & b & Hb).
      exists (k - a i * c p / a p * b)%Qc. intros r Hr. rewrite !sumf_cons. specialize (IH r Hr). rewrite (Hb r Hr).
      transitivity (a i * c p * Y p (s r) + a i * sumf ps (fun p => c p * Y p (s r)))%Qc; [ring|]. rewrite IH. field. exact Np. }
    destruct Q as (k & Q). exists (bi + k)%Qc. intros r Hr. unfold D, U, U'. rewrite (Hbi r Hr).
    transitivity (bi + a i * sumf ps (fun p => c p * Y p (s r)) - sumf ps (fun p => c' p * Y' p r))%Qc; [ring|]. rewrite (Q r Hr).
    rewrite (sumf_ext _ (fun p => (a i * c p / a p - c' p) * Y' p r)%Qc (fun p => a i * c p / a p * Y' p r + (- (1)) * (c' p * Y' p r))%Qc) by (intros; ring).
    rewrite sumf_plus, sumf_scal. ring. }
  destruct ED as (k & ED).
  assert (V : var N D = 0%Qc).
  { unfold var. rewrite (cov_ext N D (fun r => sumf ps (fun p => (a i * c p / a p - c' p) * Y' p r) + k)%Qc D D) by (intros r Hr; try reflexivity; rewrite (ED r Hr); ring).
    rewrite (cov_shift N (fun r => sumf ps (fun p => (a i * c p / a p - c' p) * Y' p r))%Qc) by exact HN. rewrite cov_wsum. apply sumf_zero. intros p Hp. rewrite cov_sym, (CD p Hp). ring. }
  exists (mean N D). intros r Hr. pose proof (var_zero_const N D HN V r Hr) as E. unfold D at 1 in E. rewrite <- E. ring.
Qed.
(** Their coefficients, if the regressors are not related. *)
Lemma coefficients_units : forall N n s a Y Y' i ps c c', 0 < N -> rearranges N s -> same_data N s a Y Y' -> independent_columns N n Y -> NoDup ps -> (forall p, In p ps -> p < n) ->
  least_squares N Y (Y i) ps c -> least_squares N Y' (Y' i) ps c' -> forall p, In p ps -> c' p = (a i * c p / a p)%Qc.
Proof.
  intros N n s a Y Y' i ps c c' HN HS SD IC ND RG L L' p Hp.
  destruct (residual_units N s a Y Y' i ps c c' HN HS SD L L') as (b & H).
  set (d := fun q => if memb q ps then (a i * c q - c' q * a q)%Qc else 0%Qc).
  assert (Z : exists c0, forall r, r < N -> sumn n (fun j => d j * Y j r)%Qc = c0).
  { assert (EX : exists k, forall r, r < N -> sumf ps (fun q => (a i * c q - c' q * a q) * Y q (s r))%Qc = k).
    { destruct (SD i) as (_ & bi & Hbi).
      assert (Q : exists k, forall r, r < N -> (sumf ps (fun p => c' p * Y' p r) = k + sumf ps (fun p => c' p * a p * Y p (s r)))%Qc).
      { clear -SD. induction ps as [|q ps (k & IH)]; [exists 0%Qc; intros; rewrite !sumf_nil; ring|]. destruct (SD q) as (_ & b & Hb). exists (k + c' q * b)%Qc. intros r Hr. rewrite !sumf_cons, (IH r Hr), (Hb r Hr). ring. }
      destruct Q as (k & Q). exists (b - bi + k)%Qc. intros r Hr. specialize (H r Hr). cbv beta in H. rewrite (Hbi r Hr), (Q r Hr) in H.
      rewrite (sumf_ext _ (fun q => (a i * c q - c' q * a q) * Y q (s r))%Qc (fun q => a i * (c q * Y q (s r)) + (- (1)) * (c' q * a q * Y q (s r)))%Qc) by (intros; ring).
      rewrite sumf_plus, !sumf_scal. set (S1 := sumf ps (fun p => c p * Y p (s r))%Qc) in *. set (S2 := sumf ps (fun p => c' p * a p * Y p (s r))%Qc) in *.
      transitivity (b - bi + k + ((a i * Y i (s r) + bi - (k + S2)) - (a i * (Y i (s r) - S1) + b)))%Qc; [ring|rewrite H; ring]. }
    destruct EX as (k & EX). exists k. intros r Hr. destruct (rearranges_onto N s HS r Hr) as (q & Hq & <-). rewrite <- (EX q Hq).
    unfold sumn. rewrite (sumf_ext _ (fun j => d j * Y j (s q))%Qc (fun j => if memb j ps then (a i * c j - c' j * a j) * Y j (s q) else 0)%Qc) by (intros j _; unfold d; destruct (memb j ps); ring).
    rewrite <- (sumf_filter_zero nat (fun j => memb j ps)) by (intros j _ E; rewrite E; reflexivity).
    rewrite (sumf_perm _ _ (filter (fun j => memb j ps) (seq 0 n)) ps).
    2:{ apply NoDup_Permutation; [apply NoDup_filter, seq_NoDup|exact ND|]. intro j. rewrite filter_In, in_seq, memb_In. split; [tauto|]. intro J. split; [|exact J]. specialize (RG j J). lia. }
    apply sumf_ext. intros j J. apply memb_In in J. rewrite J. reflexivity. }
  destruct Z as (c0 & Z). pose proof (IC d c0 Z p (RG p Hp)) as E. unfold d in E. rewrite (proj2 (memb_In p ps) Hp) in E.
  destruct (SD p) as (Np & _). transitivity ((a i * c p - (a i * c p - c' p * a p)) / a p)%Qc; [field; exact Np|rewrite E; field; exact Np].
Qed.
