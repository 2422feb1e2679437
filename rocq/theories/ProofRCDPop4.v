(** * RCD on model data: parents, shared confounders and the adjacency matrix *)
From Coq Require Import List Arith Bool ZArith QArith Qcanon Lia Permutation Relations.
From Verif Require Import Prelude Spec Lib LibMat Loop SpecPop SpecRCDPop ModelRCD ModelRCDPop ProofRCD ProofEffect ProofPop ProofPop2 ProofPop3 ProofRCDPop ProofRCDPop2 ProofRCDPop3.
Import ListNotations.
Open Scope nat_scope.

Lemma sumf_elems : forall n p (f : nat -> Qc), sumf (elems n p) f = sumn n (fun k => if p k then f k else 0%Qc).
Proof.
  intros n p f. unfold elems, sumn. induction (seq 0 n) as [|a l IH]; [reflexivity|]. cbn [filter]. rewrite sumf_cons.
  destruct (p a); [rewrite sumf_cons, IH; reflexivity|rewrite IH; ring].
Qed.
Lemma elems_In : forall n p v, In v (elems n p) <-> v < n /\ p v = true.
Proof. intros. unfold elems. rewrite filter_In, in_seq. split; intros [H1 H2]; (split; [lia|exact H2]). Qed.
Lemma elems_NoDup : forall n p, NoDup (elems n p).
Proof. intros. apply NoDup_filter, seq_NoDup. Qed.

Section Parents.
  Variables (N m : nat) (B : mat Qc) (e x : nat -> sample).
  Hypothesis LM : linear_model N m B e x.
  Variables (ols : (nat -> sample) -> list nat -> sample -> nat -> Qc) (icpt : (nat -> sample) -> list nat -> sample -> Qc).
  Hypothesis OLS : solves_least_squares N ols.
  Notation anc := (ancestor m B).
  Notation Y := (resid_given ols icpt x).

  (** The residual of the regression on [G] is the part of x_i uncorrelated with [G]. *)
  Lemma resid_unique : forall i G b u, i < m -> NoDup G -> (forall z, cov N (x i) z = (sumf G (fun p => b p * cov N (x p) z) + cov N u z)%Qc) -> (forall g, In g G -> cov N u (x g) = 0%Qc) ->
    (forall z, cov N (Y G i) z = cov N u z) /\ (forall z, cov N (fun r => sumf G (fun p => (b p - ols x G (x i) p) * x p r))%Qc z = 0%Qc).
  Proof.
    intros i G b u Hi ND E O. set (c := ols x G (x i)). set (D := (fun r => sumf G (fun p => (b p - c p) * x p r)%Qc) : sample).
    assert (CD : forall z, cov N D z = (cov N (Y G i) z - cov N u z)%Qc).
    { intro z. unfold D. rewrite (cov_wsum N G (fun p => b p - c p)%Qc x z). rewrite (Y_cov N x ols icpt G i z). fold c. rewrite (E z).
      rewrite (sumf_ext _ (fun p => (b p - c p) * cov N (x p) z)%Qc (fun p => b p * cov N (x p) z - c p * cov N (x p) z)%Qc) by (intros; ring).
      rewrite sumf_minus. ring. }
    assert (V : var N D = 0%Qc).
    { unfold var. unfold D at 1. rewrite (cov_wsum N G (fun p => b p - c p)%Qc x D). apply sumf_zero. intros p Ip. rewrite (cov_sym N (x p) D), CD, (Y_orth N x ols icpt OLS G i p ND Ip), (O p Ip). ring. }
    assert (Z : forall z, cov N D z = 0%Qc) by (intro z; apply var_zero; [exact (lm_rows N m B e x i LM Hi)|exact V]).
    split; [|exact Z]. intro z. pose proof (Z z) as Q. rewrite CD in Q. transitivity (cov N (Y G i) z - cov N u z + cov N u z)%Qc; [ring|rewrite Q; ring].
  Qed.
  Lemma e_orth_anc : forall i g, i < m -> g < m -> g <> i -> ~ anc i g -> cov N (e i) (x g) = 0%Qc.
  Proof. intros i g Hi Hg D NA. rewrite cov_sym. apply (load_nonanc N m B e x LM g i Hg Hi (not_eq_sym D) NA). Qed.
  (** No variable is a combination of others. *)
  Lemma resid_var : forall j p, j < m -> p j = false -> var N (Y (elems m p) j) <> 0%Qc.
  Proof.
    intros j p Hj Pj V. pose proof (lm_rows N m B e x j LM Hj) as HN.
    set (c := ols x (elems m p) (x j)).
    assert (Q : 1%Qc = 0%Qc); [|discriminate].
    pose proof (x_independent N m B e x LM (fun k => if k =? j then 1%Qc else if p k then (- c k)%Qc else 0%Qc)) as XI.
    rewrite <- (XI) with (k := j); [rewrite Nat.eqb_refl; reflexivity| |exact Hj].
    intros k Hk. rewrite cov_wsumn.
    transitivity (cov N (Y (elems m p) j) (e k)); [|apply var_zero; assumption].
    rewrite (Y_cov N x ols icpt). fold c. rewrite sumf_elems.
    rewrite (sumn_ext m (fun q => (if q =? j then 1 else if p q then - c q else 0) * cov N (x q) (e k))%Qc
      (fun q => (if q =? j then cov N (x q) (e k) else 0) - (if p q then c q * cov N (x q) (e k) else 0))%Qc).
    - rewrite (sumn_minus m (fun q => if q =? j then cov N (x q) (e k) else 0)%Qc (fun q => if p q then c q * cov N (x q) (e k) else 0)%Qc).
      rewrite (sumn_single m (fun q => if q =? j then cov N (x q) (e k) else 0)%Qc j Hj); [rewrite Nat.eqb_refl; reflexivity|].
      intros q _ D. destruct (Nat.eqb_spec q j); [contradiction|reflexivity].
    - intros q _. destruct (Nat.eqb_spec q j) as [->|D]; [rewrite Pj; ring|destruct (p q); ring].
  Qed.
  Variable M : sets.
  Hypothesis EX : forall i j, M i j = true <-> anc j i.
  Variable corr : sample -> sample -> bool.
  Hypothesis IC : ideal_correlation N m e corr.
  (** The correlation tested for the pair is the coefficient times a variance. *)
  Lemma parent_cov : forall i j, anc j i ->
    cov N (Y (elems m (fun v => M i v && M j v)) j) (Y (elems m (fun v => M i v && negb (v =? j))) i) =
    (B i j * var N (Y (elems m (fun v => M i v && negb (v =? j))) j))%Qc.
  Proof.
    intros i j A. destruct (anc_bound m B j i A) as [Hj Hi].
    rewrite (Y_pure_cov N m B e x LM ols icpt OLS (elems m (fun v => M i v && M j v)) j _ Hj (elems_NoDup _ _)).
    2:{ intro h. rewrite elems_In, andb_true_iff, !EX. split; [tauto|]. intro Q. split; [apply (anc_bound m B h j Q)|]. split; [exact (anc_trans m B h j i Q A)|exact Q]. }
    set (G := elems m (fun v => M i v && negb (v =? j))). set (V := Y G j).
    assert (GI : forall g, In g G <-> anc g i /\ g <> j).
    { intro g. unfold G. rewrite elems_In, andb_true_iff, negb_true_iff, Nat.eqb_neq, EX. split; [tauto|]. intros [Q D]. split; [apply (anc_bound m B g i Q)|tauto]. }
    assert (NDG : NoDup G) by apply elems_NoDup.
    assert (Dij : i <> j) by (intros ->; exact (anc_irrefl N m B e x LM j A)).
    assert (VO : forall g, In g G -> cov N V (x g) = 0%Qc) by (intros g Ig; apply (Y_orth N x ols icpt OLS G j g NDG Ig)).
    assert (VV : var N V = cov N V (x j)).
    { unfold var. unfold V at 1. rewrite (Y_cov N x ols icpt G j V). rewrite sumf_zero; [rewrite (cov_sym N (x j) V); ring|].
      intros g Ig. rewrite (cov_sym N (x g) V), (VO g Ig). ring. }
    assert (VE : cov N V (e j) = var N V).
    { rewrite (e_as_x N m B e x LM j V Hj), VV. rewrite sumn_zero; [ring|]. intros p Hp. destruct (Qc_eq_dec (B j p) 0) as [Z|Z]; [rewrite Z; ring|].
      pose proof (anc_edge m B j p Hj Hp Z) as AP. rewrite (VO p); [ring|]. apply GI. split; [exact (anc_trans m B p j i AP A)|]. intros ->. exact (anc_irrefl N m B e x LM j AP). }
    set (cv := ols x G (x j)). set (u := (fun r => B i j * V r + 1 * e i r)%Qc : sample).
    assert (CU : forall z, cov N u z = (B i j * cov N V z + cov N (e i) z)%Qc) by (intro z; unfold u; rewrite cov_lin; ring).
    destruct (resid_unique i G (fun p => B i p + B i j * cv p)%Qc u Hi NDG) as [W _].
    - intro z. rewrite CU. unfold V. rewrite (Y_cov N x ols icpt G j z). fold cv. rewrite (cov_split N m B e x LM i z Hi).
      assert (SP : sumn m (fun q => B i q * cov N (x q) z)%Qc = (B i j * cov N (x j) z + sumf G (fun p => B i p * cov N (x p) z))%Qc).
      { unfold G. rewrite sumf_elems.
        rewrite (sumn_ext m (fun q => B i q * cov N (x q) z)%Qc (fun q => (if q =? j then B i q * cov N (x q) z else 0) + (if M i q && negb (q =? j) then B i q * cov N (x q) z else 0))%Qc).
        - rewrite (sumn_plus m (fun q => if q =? j then B i q * cov N (x q) z else 0)%Qc (fun q => if M i q && negb (q =? j) then B i q * cov N (x q) z else 0)%Qc).
          rewrite (sumn_single m (fun q => if q =? j then B i q * cov N (x q) z else 0)%Qc j Hj); [rewrite Nat.eqb_refl; reflexivity|].
          intros q _ D. destruct (Nat.eqb_spec q j); [contradiction|reflexivity].
        - intros q Hq. destruct (Nat.eqb_spec q j) as [->|D]; cbn [negb]; [rewrite andb_false_r; ring|]. rewrite andb_true_r.
          destruct (M i q) eqn:Q; [ring|]. destruct (Qc_eq_dec (B i q) 0) as [Z|Z]; [rewrite Z; ring|]. pose proof (anc_edge m B i q Hi Hq Z) as AQ. apply EX in AQ. congruence. }
      rewrite SP. rewrite (sumf_ext _ (fun p => (B i p + B i j * cv p) * cov N (x p) z)%Qc (fun p => B i p * cov N (x p) z + B i j * (cv p * cov N (x p) z))%Qc) by (intros; ring).
      rewrite sumf_plus, sumf_scal. ring.
    - intros g Ig. rewrite CU, (VO g Ig). apply GI in Ig. destruct Ig as [Ag _]. rewrite e_orth_anc; [ring|exact Hi|apply (anc_bound m B g i Ag)| |exact (anc_asym N m B e x LM g i Ag)].
      intros ->. exact (anc_irrefl N m B e x LM i Ag).
    - rewrite (cov_sym N (e j)), W, CU, VE, (lm_uncorrelated _ _ _ _ _ LM i j Hi Hj Dij). ring.
  Qed.
  Notation P := (rcd_parents m (d_cor2 ols icpt corr x) M).
  Lemma parents_exact : forall i j, P i j = true <-> edge_of m B j i.
  Proof.
    intros i j. unfold rcd_parents. rewrite andb_true_iff, EX.
    assert (T : anc j i -> (d_cor2 ols icpt corr x j (elems m (fun v => M i v && M j v)) i (elems m (fun v => M i v && negb (v =? j))) = true <-> B i j <> 0%Qc)).
    { intro A. destruct (anc_bound m B j i A) as [Hj Hi]. unfold d_cor2. rewrite (IC _ _ (Y_comb N m B e x LM ols icpt _ j Hj (fun h Ih => proj1 (proj1 (elems_In _ _ h) Ih))) (Y_comb N m B e x LM ols icpt _ i Hi (fun h Ih => proj1 (proj1 (elems_In _ _ h) Ih)))).
      rewrite (parent_cov i j A). split; intros Q Z; apply Q.
      - rewrite Z. ring.
      - destruct (Qcmult_integral _ _ Z) as [Z'|Z']; [exact Z'|]. exfalso. revert Z'. apply resid_var; [exact Hj|]. rewrite Nat.eqb_refl. apply andb_false_r. }
    split.
    - intros [A C]. destruct (anc_bound m B j i A) as [Hj Hi]. split; [exact Hi|]. split; [exact Hj|]. apply T; assumption.
    - intros (Hi & Hj & Z). pose proof (anc_edge m B i j Hi Hj Z) as A. split; [exact A|]. apply T; assumption.
  Qed.
  (** The residual to the parents is the error, and the coefficients are those of the model. *)
  Lemma on_parents : forall i, i < m -> (forall z, cov N (Y (elems m (P i)) i) z = cov N (e i) z) /\ (forall j, edge_of m B j i -> ols x (elems m (P i)) (x i) j = B i j).
  Proof.
    intros i Hi. destruct (resid_unique i (elems m (P i)) (B i) (e i) Hi (elems_NoDup _ _)) as [R D].
    - intro z. rewrite (cov_split N m B e x LM i z Hi), sumf_elems. f_equal. apply sumn_ext. intros q Hq. destruct (P i q) eqn:Q; [reflexivity|].
      destruct (Qc_eq_dec (B i q) 0) as [Z|Z]; [rewrite Z; ring|]. assert (EQ : edge_of m B q i) by (split; [exact Hi|split; [exact Hq|exact Z]]). apply parents_exact in EQ. congruence.
    - intros g Ig. apply elems_In in Ig. destruct Ig as [Hg Q]. apply parents_exact in Q. pose proof (anc_edge m B i g Hi Hg (proj2 (proj2 Q))) as Ag.
      apply e_orth_anc; [exact Hi|exact Hg| |exact (anc_asym N m B e x LM g i Ag)]. intros ->. exact (anc_irrefl N m B e x LM i Ag).
    - split; [exact R|]. intros j Ej. set (c := ols x (elems m (P i)) (x i)) in *.
      assert (Q : (if P i j then B i j - c j else 0)%Qc = 0%Qc).
      { apply (x_independent N m B e x LM (fun q => if P i q then B i q - c q else 0)%Qc); [|exact (proj1 (proj2 Ej))].
        intros k Hk. refine (eq_trans _ (D (e k))). rewrite cov_wsumn, (cov_wsum N (elems m (P i)) (fun p => B i p - c p)%Qc x (e k)), sumf_elems.
        apply sumn_ext. intros q _. destruct (P i q); ring. }
      apply parents_exact in Ej. rewrite Ej in Q. transitivity (B i j - (B i j - c j))%Qc; [ring|rewrite Q; ring].
  Qed.
  Lemma none_confounded : forall i j, rcd_confounded m (d_cor2 ols icpt corr x) P i j = false.
  Proof.
    intros i j. destruct (rcd_confounded m (d_cor2 ols icpt corr x) P i j) eqn:Q; [|reflexivity]. apply (confounded_iff m (d_cor2 ols icpt corr x) (fun _ _ _ => 0%Qc) P) in Q. exfalso.
    assert (G : forall a b, shares m (d_cor2 ols icpt corr x) P a b -> False).
    { intros a b (L & _ & _ & C). unfold d_cor2 in C.
      apply (IC _ _ (Y_comb N m B e x LM ols icpt _ a ltac:(lia) (fun h Ih => proj1 (proj1 (elems_In _ _ h) Ih))) (Y_comb N m B e x LM ols icpt _ b ltac:(lia) (fun h Ih => proj1 (proj1 (elems_In _ _ h) Ih)))) in C.
      apply C. rewrite (proj1 (on_parents a ltac:(lia))), cov_sym, (proj1 (on_parents b ltac:(lia))). apply (lm_uncorrelated _ _ _ _ _ LM); lia. }
    destruct Q as [Q|Q]; exact (G _ _ Q).
  Qed.
  Lemma adjacency_exact : forall i j, i < m -> j < m -> rcd_adjacency m (fun i ps j => ols x ps (x i) j) P (rcd_confounded m (d_cor2 ols icpt corr x) P) i j = Some (B i j).
  Proof.
    intros i j Hi Hj. unfold rcd_adjacency. rewrite none_confounded. destruct (P i j) eqn:Q.
    - apply parents_exact in Q. f_equal. apply (proj2 (on_parents i Hi) j Q).
    - destruct (Qc_eq_dec (B i j) 0) as [Z|Z]; [rewrite Z; reflexivity|]. assert (EQ : edge_of m B j i) by (split; [exact Hi|split; [exact Hj|exact Z]]). apply parents_exact in EQ. congruence.
  Qed.
End Parents.

Lemma rcd_data_correct : forall N n B e x ols icpt shapiro corr ind mlcoef maxl mlh,
  linear_model N n B e x -> no_cancelling N n B e x -> solves_least_squares N ols -> ideal_normality N n e shapiro -> ideal_correlation N n e corr -> ideal_independence N n e ind ->
  maxl = 1 \/ maxl = 2 ->
  exists M A, rcd_data_fit ols icpt shapiro corr ind mlcoef x n maxl mlh = Ok (M, A) /\
    (forall i j, M i j = true <-> ancestor n B j i) /\ (forall i j, i < n -> j < n -> A i j = Some (B i j)).
Proof.
  intros N n B e x ols icpt shapiro corr ind mlcoef maxl mlh LM NC OLS IN IC II ML.
  unfold rcd_data_fit, rcd_fit. replace (maxl =? 0) with false by (symmetry; apply Nat.eqb_neq; lia).
  destruct (ancestors_terminates n maxl mlh (d_nongauss ols icpt shapiro x) (d_corr ols icpt corr x) (d_ols ols icpt ind x) (d_ml ols icpt ind mlcoef x) ltac:(lia) (rcd_fuel n maxl)) as [M E]; [unfold rcd_fuel; apply Nat.log2_spec; lia|].
  rewrite E. pose proof (search_exact N n B e x LM ols icpt OLS NC shapiro corr ind mlcoef IC II n mlh (le_n n) eq_refl IN maxl (rcd_fuel n maxl) M ltac:(lia) ltac:(lia) E) as EX.
  eexists M, _. split; [reflexivity|]. split; [exact EX|]. intros i j Hi Hj. apply (adjacency_exact N n B e x LM ols icpt OLS M EX corr IC i j Hi Hj).
Qed.
Lemma rcd_data_sound_pairs : forall N n m B e x ols icpt shapiro corr ind mlcoef mlh M A,
  n <= m -> linear_model N m B e x -> no_cancelling N m B e x -> solves_least_squares N ols -> ideal_correlation N m e corr -> ideal_independence N m e ind ->
  rcd_data_fit ols icpt shapiro corr ind mlcoef x n 1 mlh = Ok (M, A) -> forall i j, M i j = true -> i < n /\ j < n /\ ancestor m B j i.
Proof.
  intros N n m B e x ols icpt shapiro corr ind mlcoef mlh M A NM LM NC OLS IC II E i j Q. unfold rcd_data_fit, rcd_fit in E. cbn [Nat.eqb] in E.
  destruct (rcd_ancestors n 1 mlh (d_nongauss ols icpt shapiro x) (d_corr ols icpt corr x) (d_ols ols icpt ind x) (d_ml ols icpt ind mlcoef x) (rcd_fuel n 1)) as [?|M0] eqn:EA; [discriminate|].
  injection E as -> _. destruct (search_sound_pairs N m B e x LM ols icpt OLS NC shapiro corr ind mlcoef IC II n mlh NM (rcd_fuel n 1) M EA i j Q) as (H1 & H2 & H3). auto.
Qed.
