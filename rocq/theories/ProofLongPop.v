(** * LongitudinalLiNGAM on model data: proofs *)
From Coq Require Import List Arith Bool ZArith QArith Qcanon Lia Permutation Relations.
From Verif Require Import Prelude Spec Lib LibMat SpecDirect SpecPop SpecLongPop ModelPaths ModelDirect ProofDirect ProofDirect2 ModelTotal ProofEffect
  ProofPop ProofPop2 ProofPop3 ProofVarPop ProofVarPop2 ModelLong.
From Verif Require ModelVarPop.
Import ListNotations.
Open Scope nat_scope.

(** Regression on [Q] past columns [z] within a structural model. *)
Section Regress.
  Variables (N n Q : nat) (B0 : mat Qc) (C : nat -> nat -> Qc) (e x : nat -> sample) (z : nat -> sample) (M : nat -> nat -> Qc).
  Hypothesis equation : forall i s, i < n -> s < N -> (x i s = sumn n (fun j => B0 i j * x j s) + sumn Q (fun q => C i q * z q s) + e i s)%Qc.
  Hypothesis past : forall i q, i < n -> q < Q -> cov N (e i) (z q) = 0%Qc.
  Hypothesis independent : forall c c0, (forall s, s < N -> sumn Q (fun q => c q * z q s)%Qc = c0) -> forall q, q < Q -> c q = 0%Qc.
  Hypothesis normal : forall i q, i < n -> q < Q -> cov N (fun s => x i s - sumn Q (fun q => M i q * z q s))%Qc (z q) = 0%Qc.
  Hypothesis N_pos : 0 < N.
  Let res (i : nat) : sample := fun s => (x i s - sumn Q (fun q => M i q * z q s))%Qc.

  Lemma res_structural : forall i s, i < n -> s < N ->
    (res i s - sumn n (fun j => B0 i j * res j s) = sumn Q (fun q => (C i q - (M i q - sumn n (fun j => B0 i j * M j q))) * z q s) + e i s)%Qc.
  Proof.
    intros i s Hi Hs. unfold res.
    rewrite (sumn_ext n (fun j => B0 i j * (x j s - sumn Q (fun q => M j q * z q s)))%Qc (fun j => B0 i j * x j s - B0 i j * sumn Q (fun q => M j q * z q s))%Qc) by (intros; ring).
    rewrite (sumn_minus n (fun j => B0 i j * x j s)%Qc (fun j => B0 i j * sumn Q (fun q => M j q * z q s))%Qc).
    rewrite (equation i s Hi Hs).
    rewrite (sumn_ext Q (fun q => (C i q - (M i q - sumn n (fun j => B0 i j * M j q))) * z q s)%Qc (fun q => C i q * z q s - (M i q * z q s - sumn n (fun j => B0 i j * M j q) * z q s))%Qc) by (intros; ring).
    rewrite (sumn_minus Q (fun q => C i q * z q s)%Qc (fun q => M i q * z q s - sumn n (fun j => B0 i j * M j q) * z q s)%Qc).
    rewrite (sumn_minus Q (fun q => M i q * z q s)%Qc (fun q => sumn n (fun j => B0 i j * M j q) * z q s)%Qc).
    assert (E : sumn n (fun j => B0 i j * sumn Q (fun q => M j q * z q s))%Qc = sumn Q (fun q => sumn n (fun j => B0 i j * M j q) * z q s)%Qc); [|rewrite E; ring].
    rewrite (sumn_ext n _ (fun j => sumn Q (fun q => B0 i j * M j q * z q s))%Qc) by (intros j _; rewrite <- sumn_scal; apply sumn_ext; intros; ring).
    rewrite sumn_swap. apply sumn_ext. intros q _. apply sumn_scal_r.
  Qed.
  Lemma reduced_exact : forall i q, i < n -> q < Q -> (M i q - sumn n (fun j => B0 i j * M j q))%Qc = C i q.
  Proof.
    intros i q Hi Hq. set (d := fun q => (C i q - (M i q - sumn n (fun j => B0 i j * M j q)))%Qc).
    set (D := fun s => sumn Q (fun q => d q * z q s)%Qc).
    assert (ED : forall s, s < N -> D s = (res i s - sumn n (fun j => B0 i j * res j s) - e i s)%Qc)
      by (intros s Hs; rewrite (res_structural i s Hi Hs); unfold D, d; ring).
    assert (CZ : forall q', q' < Q -> cov N D (z q') = 0%Qc).
    { intros q' Hq'. rewrite (cov_ext N D (fun s => res i s - sumn n (fun j => B0 i j * res j s) - e i s)%Qc (z q') (z q') ED (fun _ _ => eq_refl)).
      rewrite (cov_minus N (fun s => res i s - sumn n (fun j => B0 i j * res j s))%Qc (e i)), (past i q' Hi Hq').
      rewrite (cov_minus N (res i) (fun s => sumn n (fun j => B0 i j * res j s))%Qc), (cov_wsumn N n (B0 i) res (z q')). unfold res at 1. rewrite (normal i q' Hi Hq').
      rewrite sumn_zero; [ring|]. intros j Hj. unfold res. rewrite (normal j q' Hj Hq'). ring. }
    assert (V : var N D = 0%Qc).
    { unfold var. unfold D at 1. rewrite cov_wsumn. apply sumn_zero. intros q' Hq'. rewrite cov_sym, (CZ q' Hq'). ring. }
    assert (K : forall s, s < N -> D s = mean N D).
    { intros s Hs. assert (Z : (D s - mean N D)%Qc = 0%Qc).
      { apply (sumn_squares_zero N (fun r => D r - mean N D)%Qc); [|exact Hs]. unfold var, cov in V.
        transitivity (sumn N (fun r => (D r - mean N D) * (D r - mean N D)) / qn N * qn N)%Qc; [field; apply qn_nonzero; exact N_pos|rewrite V; ring]. }
      transitivity (D s - mean N D + mean N D)%Qc; [ring|rewrite Z; ring]. }
    pose proof (independent d (mean N D) K q Hq) as Z. unfold d in Z.
    transitivity (C i q - (C i q - (M i q - sumn n (fun j => B0 i j * M j q))))%Qc; [ring|rewrite Z; ring].
  Qed.
  Lemma res_equation : forall i s, i < n -> s < N -> (res i s = sumn n (fun j => B0 i j * res j s) + e i s)%Qc.
  Proof.
    intros i s Hi Hs. pose proof (res_structural i s Hi Hs) as H. rewrite (sumn_zero Q) in H.
    - transitivity (sumn n (fun j => B0 i j * res j s) + (res i s - sumn n (fun j => B0 i j * res j s)))%Qc; [ring|rewrite H; ring].
    - intros q Hq. rewrite (reduced_exact i q Hi Hq). ring.
  Qed.
End Regress.

(** Columns of the stacked past: column l*p + j is variable j at time t - L + l. *)
Lemma flat_sum : forall L p (f : nat -> nat -> Qc), sumn (L * p) (fun r => f (r / p) (r mod p)) = sumn L (fun l => sumn p (fun j => f l j)).
Proof.
  intros L p f. induction L as [|L IH]; [reflexivity|]. rewrite sumn_S, <- IH. clear IH.
  destruct p as [|p]; [rewrite !Nat.mul_0_r; unfold sumn; cbn [seq]; rewrite !sumf_nil; ring|].
  replace (S L * S p) with (L * S p + S p) by lia. unfold sumn. rewrite seq_app, sumf_app. f_equal.
  assert (SH : forall b s (g : nat -> Qc), sumf (seq s b) g = sumn b (fun j => g (s + j))).
  { induction b as [|b IHb]; intros s g; [reflexivity|]. rewrite sumn_shift. cbn [seq]. rewrite sumf_cons, IHb, Nat.add_0_r. f_equal. apply sumn_ext. intros j _. f_equal. lia. }
  cbn [Nat.add]. rewrite SH. apply sumn_ext. intros j Hj.
  replace (L * S p + j) with (j + L * S p) by lia. rewrite Nat.div_add, Nat.mod_add, Nat.div_small, Nat.mod_small by lia. reflexivity.
Qed.
Lemma sumn_flip : forall L (f : nat -> Qc), sumn L (fun l => f (L - 1 - l)) = sumn L f.
Proof. exact sumn_rev. Qed.

Section Long.
  Variables (N n L t : nat) (B : nat -> mat Qc) (e : nat -> sample) (X : panel) (reg : mat Qc -> mat Qc -> mat Qc).
  Hypothesis LO : long_model N n L t B e X.
  Hypothesis Lt : L <= t.
  Hypothesis N_pos : 0 < N.
  Hypothesis REG : forall i q, i < n -> q < L * n ->
    cov N (fun s => X t s i - sumn (L * n) (fun r => coef reg n L X t i r * lag_stack n L X t r s))%Qc (lag_stack n L X t q) = 0%Qc.
  Let C (i r : nat) : Qc := B (L - r / n) i (r mod n).
  Let z (r : nat) : sample := lag_stack n L X t r.

  Lemma lag_time : forall l, l < L -> t - L + l = t - (L - 1 - l + 1).
  Proof. intros l Hl. lia. Qed.
  Lemma flat_past : forall (c : nat -> nat -> Qc) s,
    sumn (L * n) (fun r => c (L - 1 - r / n)%nat (r mod n)%nat * z r s)%Qc = sumn L (fun k => sumn n (fun j => c k j * X (t - (k + 1))%nat s j))%Qc.
  Proof.
    intros c s. unfold z, lag_stack.
    rewrite (flat_sum L n (fun l j => c (L - 1 - l)%nat j * X (t - L + l)%nat s j)%Qc).
    rewrite <- (sumn_rev L (fun k => sumn n (fun j => c k j * X (t - (k + 1))%nat s j))%Qc). apply sumn_ext. intros l Hl. apply sumn_ext. intros j Hj.
    rewrite (lag_time l Hl). reflexivity.
  Qed.
  Lemma flat_bound : forall r, r < L * n -> r / n < L /\ r mod n < n.
  Proof.
    intros r Hr. assert (Nn : n <> 0) by (intros ->; lia). split; [|apply Nat.mod_upper_bound; exact Nn].
    apply Nat.div_lt_upper_bound; [exact Nn|lia].
  Qed.
  Let x (i : nat) : sample := fun s => X t s i.
  Lemma long_equation : forall i s, i < n -> s < N ->
    (x i s = sumn n (fun j => B 0%nat i j * x j s) + sumn (L * n) (fun q => C i q * z q s) + e i s)%Qc.
  Proof.
    intros i s Hi Hs. unfold x. rewrite (lo_equation N n L t B e X LO s i Hi Hs). f_equal. f_equal.
    rewrite <- (flat_past (fun k j => B (k + 1)%nat i j) s). apply sumn_ext. intros r Hr. unfold C.
    destruct (flat_bound r Hr). replace (L - 1 - r / n + 1) with (L - r / n) by lia. reflexivity.
  Qed.
  Lemma long_past : forall i q, i < n -> q < L * n -> cov N (e i) (z q) = 0%Qc.
  Proof.
    intros i q Hi Hq. destruct (flat_bound q Hq) as [H1 H2]. unfold z, lag_stack. rewrite (lag_time _ H1).
    apply (lo_past N n L t B e X LO); [exact Hi|lia|exact H2].
  Qed.
  Lemma long_independent : forall c c0, (forall s, s < N -> sumn (L * n) (fun q => c q * z q s)%Qc = c0) -> forall q, q < L * n -> c q = 0%Qc.
  Proof.
    intros c c0 H q Hq. destruct (flat_bound q Hq) as [H1 H2]. assert (Nn : n <> 0) by lia.
    set (d := fun k j => c ((L - 1 - k) * n + j)).
    assert (E : forall r, r < L * n -> d (L - 1 - r / n) (r mod n) = c r).
    { intros r Hr. destruct (flat_bound r Hr) as [R1 R2]. unfold d. f_equal. replace (L - 1 - (L - 1 - r / n)) with (r / n) by lia. rewrite Nat.mul_comm. symmetry. apply Nat.div_mod. exact Nn. }
    rewrite <- (E q Hq). apply (lo_independent N n L t B e X LO d c0); [|lia|exact H2].
    intros s Hs. rewrite <- flat_past, <- (H s Hs). apply sumn_ext. intros r Hr. rewrite (E r Hr). reflexivity.
  Qed.
  Lemma long_reduced : forall i l j, i < n -> l < L -> j < n ->
    (M_tau reg n L X t l i j - sumn n (fun a => B 0%nat i a * M_tau reg n L X t l a j))%Qc = B (L - l) i j.
  Proof.
    intros i l j Hi Hl Hj.
    assert (Hq : l * n + j < L * n) by (assert (l * n + n <= L * n) by (replace (l * n + n) with (S l * n) by lia; apply Nat.mul_le_mono_r; lia); lia).
    assert (DV : (l * n + j) / n = l /\ (l * n + j) mod n = j).
    { replace (l * n + j) with (j + l * n) by lia. rewrite Nat.div_add, Nat.mod_add, Nat.div_small, Nat.mod_small by lia. split; lia. }
    pose proof (reduced_exact N n (L * n) (B 0) C e x z (coef reg n L X t) long_equation long_past long_independent REG N_pos i (l * n + j) Hi Hq) as RE.
    unfold C in RE. destruct DV as [D1 D2]. rewrite D1, D2 in RE. exact RE.
  Qed.
  Lemma long_lag_exact : forall i l j, i < n -> l < L -> j < n ->
    mmul n (msub midn (B 0)) (M_tau reg n L X t l) i j = B (L - l) i j.
  Proof.
    intros i l j Hi Hl Hj. rewrite <- (long_reduced i l j Hi Hl Hj). unfold mmul, msub.
    rewrite (sumn_ext n (fun a => (midn i a - B 0%nat i a) * M_tau reg n L X t l a j)%Qc (fun a => midn i a * M_tau reg n L X t l a j - B 0%nat i a * M_tau reg n L X t l a j)%Qc) by (intros; ring).
    rewrite (sumn_minus n (fun a => midn i a * M_tau reg n L X t l a j)%Qc). f_equal.
    exact (mmul_id_l n (M_tau reg n L X t l) i j Hi).
  Qed.
  Lemma long_resid_model : linear_model N n (B 0) e (N_t reg n L X t).
  Proof.
    constructor.
    - exact (lo_acyclic N n L t B e X LO).
    - intros i s Hi Hs. exact (res_equation N n (L * n) (B 0) C e x z (coef reg n L X t) long_equation long_past long_independent REG N_pos i s Hi Hs).
    - exact (lo_variance N n L t B e X LO).
    - exact (lo_uncorrelated N n L t B e X LO).
  Qed.
End Long.

Lemma direct_on_rows_correct : forall N n B e R score ms lassoD, linear_model N n B e (fun i r => R r i) -> separates (better ms) N n B e (score N) ->
  exact_regression N n (fun i r => R r i) (lassoD N R) ->
  is_order n (fst (ModelVarPop.direct_on_rows score ms lassoD n N R)) /\ topological (edge_of n B) (fst (ModelVarPop.direct_on_rows score ms lassoD n N R)) /\
  forall i j, i < n -> j < n -> snd (ModelVarPop.direct_on_rows score ms lassoD n N R) i j = B i j.
Proof.
  intros N n B e R score ms lassoD MOD SEP REG. unfold ModelVarPop.direct_on_rows.
  destruct (topo_exists (edge_of n B) n (edge_of_dec n B) (lm_acyclic _ _ _ _ _ MOD)) as (l & OL & TL).
  assert (TL' : topological (edge_of n B) l) by (intros a b E; apply TL; [apply E|apply E|exact E]).
  destruct (direct_fit_correct N n B e (fun i r => R r i) ms (score N) (lassoD N R) true NoPK l MOD SEP REG OL TL' Logic.I) as (K & A & E & OK & TK & EA); [discriminate|].
  rewrite E. cbn [fst snd]. split; [exact OK|]. split; [exact TK|]. intros i j Hi Hj. rewrite (EA i j Hi Hj). reflexivity.
Qed.
