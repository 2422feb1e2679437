(** * RCD on model data: the decisions on pairs and triples *)
From Coq Require Import List Arith Bool ZArith QArith Qcanon Lia Permutation Relations.
From Verif Require Import Prelude Spec Lib LibMat SpecPop SpecRCDPop ModelRCD ModelRCDPop ProofEffect ProofPop ProofPop2 ProofPop3 ProofRCDPop.
From Verif Require ProofUtil.
Import ListNotations.
Open Scope nat_scope.

Lemma sumf_two : forall ps a b (f : nat -> Qc), NoDup ps -> a <> b -> (forall q, In q ps <-> q = a \/ q = b) -> sumf ps f = (f a + f b)%Qc.
Proof.
  intros ps a b f ND D H.
  assert (P : Permutation ps [a; b]).
  { apply NoDup_Permutation; [exact ND| |].
    - constructor; [intros [Q|[]]; congruence|]. constructor; [intros []|constructor].
    - intro q. rewrite H. cbn. split; [intros [-> | ->]; auto|intros [Q|[Q|[]]]; auto]. }
  rewrite (sumf_perm _ f _ _ P), !sumf_cons, sumf_nil. ring.
Qed.

Section Decide.
  Variables (N m : nat) (B : mat Qc) (e x : nat -> sample).
  Hypothesis LM : linear_model N m B e x.
  Variables (ols : (nat -> sample) -> list nat -> sample -> nat -> Qc) (icpt : (nat -> sample) -> list nat -> sample -> Qc).
  Hypothesis OLS : solves_least_squares N ols.
  Hypothesis NC : no_cancelling N m B e x.
  Variables (shapiro : sample -> bool) (corr ind : sample -> sample -> bool) (mlcoef : (nat -> sample) -> nat -> list nat -> nat -> Qc).
  Hypothesis IC : ideal_correlation N m e corr.
  Hypothesis II : ideal_independence N m e ind.
  Notation comb := (combination N m e).
  Notation anc := (ancestor m B).
  Notation Y := (resid_given ols icpt x).
  Notation d_ols := (d_ols ols icpt ind x).
  Notation d_ml := (d_ml ols icpt ind mlcoef x).

  Lemma anc_decidable : forall j i, j < m -> i < m -> anc j i \/ ~ anc j i.
  Proof using LM.
    intros j i Hj Hi. revert i Hi. apply (dag_ind m B (lm_acyclic _ _ _ _ _ LM) (fun i => anc j i \/ ~ anc j i)). intros i Hi IH.
    destruct (edge_of_dec m B j i) as [E|E]; [left; apply t_step; exact E|].
    assert (S : forall l, (forall k, In k l -> k < m) -> (exists k, In k l /\ edge_of m B k i /\ anc j k) \/ (forall k, In k l -> edge_of m B k i -> ~ anc j k)).
    { induction l as [|k l IHl]; intro L; [right; intros k []|]. destruct (IHl (fun q I => L q (or_intror I))) as [(q & I & Q)|N0]; [left; exists q; split; [right; exact I|exact Q]|].
      destruct (edge_of_dec m B k i) as [EK|EK].
      - destruct (IH k (L k (or_introl eq_refl)) (proj2 (proj2 EK))) as [A|A]; [left; exists k; split; [left; reflexivity|split; assumption]|].
        right. intros q [<-|I]; [intros _; exact A|apply N0; exact I].
      - right. intros q [<-|I]; [intro EQ; contradiction|apply N0; exact I]. }
    destruct (S (seq 0 m)) as [(k & _ & EK & A)|N0]; [intros k I; apply in_seq in I; lia| |].
    - left. eapply t_trans; [exact A|apply t_step; exact EK].
    - right. intro A. apply clos_trans_tn1 in A. destruct A as [i EK|k i EK A]; [contradiction|].
      apply (N0 k); [apply in_seq; destruct EK as (_ & EK & _); lia|exact EK|apply clos_tn1_trans; exact A].
  Qed.
  Lemma anc_of_load : forall j i, j < m -> i < m -> j <> i -> cov N (x i) (e j) <> 0%Qc -> anc j i.
  Proof using LM. intros j i Hj Hi D Z. destruct (anc_decidable j i Hj Hi) as [A|A]; [exact A|]. contradiction Z. apply (load_nonanc N m B e x LM i j Hi Hj D A). Qed.
  Lemma anc_iff : forall j i, j < m -> i < m -> j <> i -> (anc j i <-> cov N (x i) (e j) <> 0%Qc).
  Proof using LM NC. intros j i Hj Hi D. split; [apply NC|apply anc_of_load; assumption]. Qed.
  Lemma anc_dec : forall j i, j < m -> i < m -> anc j i \/ ~ anc j i.
  Proof using LM NC. exact anc_decidable. Qed.

  Lemma Y_comb' : forall H i, i < m -> (forall h, In h H -> h < m) -> comb (Y H i).
  Proof. exact (Y_comb N m B e x LM ols icpt). Qed.
  Lemma Y_load' : forall H u j, j < m -> (forall h, In h H -> anc h j) -> cov N (Y H u) (e j) = cov N (x u) (e j).
  Proof. exact (Y_load N m B e x LM ols icpt). Qed.
  Lemma Y_load_self : forall H j, j < m -> (forall h, In h H -> anc h j) -> cov N (Y H j) (e j) <> 0%Qc.
  Proof. intros H j Hj HH. rewrite (Y_load' H j j Hj HH), (load_self N m B e x LM j Hj). apply (var_nz N m B e x LM j Hj). Qed.
  Lemma disjoint0 : forall y z, comb y -> (forall k, k < m -> cov N y (e k) = 0%Qc \/ cov N z (e k) = 0%Qc) -> cov N y z = 0%Qc.
  Proof. intros y z Cy D. apply (disjoint_cov N m e (lm_uncorrelated _ _ _ _ _ LM) y z Cy D). apply (var_nz N m B e x LM). Qed.

  (** ** Pairs *)
  Lemma pair_resid : forall H i j z, cov N (ols_resid ols icpt (Y H) i [j]) z = (cov N (Y H i) z - ols (Y H) [j] (Y H i) j * cov N (Y H j) z)%Qc.
  Proof. intros H i j z. rewrite (ols_resid_cov N ols icpt). rewrite sumf_cons, sumf_nil. ring. Qed.
  Lemma pair_comb : forall H i j, i < m -> j < m -> (forall h, In h H -> h < m) -> comb (ols_resid ols icpt (Y H) i [j]).
  Proof.
    intros H i j Hi Hj HH. apply (ols_resid_comb N m e ols icpt); [apply Y_comb'; assumption|]. intros p [<-|[]]. apply Y_comb'; assumption.
  Qed.
  Lemma pair_orth : forall H i j, cov N (ols_resid ols icpt (Y H) i [j]) (Y H j) = 0%Qc.
  Proof. intros H i j. apply (ols_resid_orth N ols icpt OLS); [constructor; [intros []|constructor]|left; reflexivity]. Qed.
  Lemma pair_sound0 : forall H i j, i < m -> j < m -> i <> j -> (forall h, In h H -> anc h i /\ anc h j) ->
    corr (Y H i) (Y H j) = true -> d_ols H i [j] j = true -> anc j i.
  Proof using LM OLS IC II.
    intros H i j Hi Hj D HH C T.
    assert (HB : forall h, In h H -> h < m) by (intros h Ih; apply (anc_bound m B h i), HH, Ih).
    apply (IC _ _ (Y_comb' H i Hi HB) (Y_comb' H j Hj HB)) in C.
    apply (II _ _ (pair_comb H i j Hi Hj HB) (Y_comb' H j Hj HB)) with (k := j) in T; [|exact Hj].
    assert (HJ : forall h, In h H -> anc h j) by (intros h Ih; apply HH, Ih).
    destruct T as [T|T]; [|contradiction (Y_load_self H j Hj HJ)].
    apply anc_of_load; [exact Hj|exact Hi|congruence|]. intro Z. rewrite <- (Y_load' H i j Hj HJ) in Z.
    rewrite pair_resid, Z in T. assert (Q : (ols (Y H) [j] (Y H i) j * cov N (Y H j) (e j))%Qc = 0%Qc)
      by (transitivity (- (0 - ols (Y H) [j] (Y H i) j * cov N (Y H j) (e j)))%Qc; [ring|rewrite T; ring]).
    apply Qcmult_integral in Q. destruct Q as [Q|Q]; [|contradiction (Y_load_self H j Hj HJ)].
    apply C. pose proof (pair_orth H i j) as O. rewrite pair_resid, Q in O. rewrite <- O. ring.
  Qed.
  Lemma pair_sound : forall H i j, i < m -> j < m -> i <> j -> (forall h, In h H -> anc h i /\ anc h j) ->
    corr (Y H i) (Y H j) = true -> d_ols H i [j] j = true -> anc j i.
  Proof using LM OLS NC IC II. exact pair_sound0. Qed.
  (** The residual on all ancestors of [j] is the error of [j]. *)
  Lemma closed_ancestors : forall H j, (forall h, In h H <-> anc h j) -> closed m B H.
  Proof. intros H j HH h p Ih Hp Z. apply HH. apply HH in Ih. destruct (anc_bound m B h j Ih) as [L _]. exact (anc_trans m B p h j (anc_edge m B h p L Hp Z) Ih). Qed.
  Lemma Y_pure : forall H j, j < m -> NoDup H -> (forall h, In h H <-> anc h j) -> forall k, k < m -> k <> j -> cov N (Y H j) (e k) = 0%Qc.
  Proof.
    intros H j Hj ND HH k Hk D. assert (HB : forall h, In h H -> h < m) by (intros h Ih; apply (anc_bound m B h j), HH, Ih).
    destruct (in_dec Nat.eq_dec k H) as [I|I]; [apply (Y_closed_in N m B e x LM ols icpt OLS H j k ND HB (closed_ancestors H j HH) I)|].
    rewrite (Y_closed_out N m B e x LM ols icpt H j k HB (closed_ancestors H j HH) Hk I).
    apply (load_nonanc N m B e x LM j k Hj Hk D). intro A. apply I, HH, A.
  Qed.
  Lemma Y_pure_cov : forall H j z, j < m -> NoDup H -> (forall h, In h H <-> anc h j) -> cov N (Y H j) z = cov N (e j) z.
  Proof.
    intros H j z Hj ND HH. assert (HB : forall h, In h H -> h < m) by (intros h Ih; apply (anc_bound m B h j), HH, Ih).
    assert (Q : var N (fun r => Y H j r - e j r)%Qc = 0%Qc).
    { unfold var. apply disjoint0; [apply comb_minus; [apply Y_comb'; assumption|apply comb_e; exact Hj]|].
      intros k Hk. left. rewrite (cov_minus N (Y H j) (e j)). destruct (Nat.eq_dec k j) as [->|D].
      - rewrite (Y_load' H j j Hj (fun h Ih => proj1 (HH h) Ih)), (load_self N m B e x LM j Hj). unfold var. ring.
      - rewrite (Y_pure H j Hj ND HH k Hk D), (lm_uncorrelated _ _ _ _ _ LM j k Hj Hk (not_eq_sym D)). ring. }
    pose proof (var_zero N _ z (lm_rows N m B e x j LM Hj) Q) as W. rewrite (cov_minus N (Y H j) (e j)) in W.
    transitivity (cov N (Y H j) z - cov N (e j) z + cov N (e j) z)%Qc; [ring|rewrite W; ring].
  Qed.
  Lemma pair_indep : forall H i j, i < m -> j < m -> NoDup H -> (forall h, In h H <-> anc h j) -> d_ols H i [j] j = true.
  Proof using LM OLS II.
    intros H i j Hi Hj ND HH. assert (HB : forall h, In h H -> h < m) by (intros h Ih; apply (anc_bound m B h j), HH, Ih).
    apply II; [apply pair_comb; assumption|apply Y_comb'; assumption|]. intros k Hk. destruct (Nat.eq_dec k j) as [->|D].
    - left. rewrite cov_sym, <- (Y_pure_cov H j _ Hj ND HH), cov_sym. apply pair_orth.
    - right. apply (Y_pure H j Hj ND HH k Hk D).
  Qed.
  Lemma pair_dep : forall H i j, i < m -> j < m -> anc j i -> cov N (x i) (e j) <> 0%Qc -> NoDup H -> (forall h, In h H <-> anc h j) ->
    corr (Y H i) (Y H j) = true /\ corr (Y H j) (Y H i) = true /\ d_ols H j [i] i = false.
  Proof using LM OLS IC II.
    intros H i j Hi Hj A LD ND HH. assert (HB : forall h, In h H -> h < m) by (intros h Ih; apply (anc_bound m B h j), HH, Ih).
    assert (HJ : forall h, In h H -> anc h j) by (intros h Ih; apply HH, Ih).
    assert (HI : forall h, In h H -> anc h i) by (intros h Ih; exact (anc_trans m B h j i (HJ h Ih) A)).
    assert (C : cov N (Y H i) (Y H j) <> 0%Qc).
    { rewrite cov_sym, (Y_pure_cov H j _ Hj ND HH), cov_sym, (Y_load' H i j Hj HJ). exact LD. }
    split; [apply IC; [apply Y_comb'; assumption|apply Y_comb'; assumption|exact C]|].
    split; [apply IC; [apply Y_comb'; assumption|apply Y_comb'; assumption|rewrite cov_sym; exact C]|].
    destruct (d_ols H j [i] i) eqn:T; [|reflexivity]. exfalso.
    apply (II _ _ (pair_comb H j i Hj Hi HB) (Y_comb' H i Hi HB)) with (k := i) in T; [|exact Hi].
    destruct T as [T|T]; [|contradiction (Y_load_self H i Hi HI)].
    rewrite pair_resid in T.
    assert (Z : cov N (Y H j) (e i) = 0%Qc).
    { apply (Y_pure H j Hj ND HH i Hi). intros ->. exact (anc_irrefl N m B e x LM j A). }
    rewrite Z in T. assert (Q : (ols (Y H) [i] (Y H j) i * cov N (Y H i) (e i))%Qc = 0%Qc)
      by (transitivity (- (0 - ols (Y H) [i] (Y H j) i * cov N (Y H i) (e i)))%Qc; [ring|rewrite T; ring]).
    apply Qcmult_integral in Q. destruct Q as [Q|Q]; [|contradiction (Y_load_self H i Hi HI)].
    apply C. rewrite cov_sym. pose proof (pair_orth H j i) as O. rewrite pair_resid, Q in O. rewrite <- O. ring.
  Qed.
  Lemma pair_complete : forall H i j, i < m -> j < m -> anc j i -> NoDup H -> (forall h, In h H <-> anc h j) ->
    corr (Y H i) (Y H j) = true /\ corr (Y H j) (Y H i) = true /\ d_ols H i [j] j = true /\ d_ols H j [i] i = false.
  Proof using LM OLS NC IC II.
    intros H i j Hi Hj A ND HH. destruct (pair_dep H i j Hi Hj A (NC j i A) ND HH) as (C1 & C2 & T2).
    split; [exact C1|]. split; [exact C2|]. split; [apply pair_indep; assumption|exact T2].
  Qed.
  Lemma Y_variance : forall H j, j < m -> (forall h, In h H -> anc h j) -> var N (Y H j) <> 0%Qc.
  Proof. intros H j Hj HH Z. apply (Y_load_self H j Hj HH). apply (var_zero N _ _ (lm_rows N m B e x j LM Hj) Z). Qed.

  (** ** Any accepted regression residual *)
  Lemma ml_fold : forall ps (c : nat -> Qc) (y : nat -> sample) v r, fold_left (fun v p => (v - c p * y p r)%Qc) ps v = (v - sumf ps (fun p => c p * y p r))%Qc.
  Proof. induction ps as [|p ps IH]; intros c y v r; cbn [fold_left]; [rewrite sumf_nil; ring|]. rewrite IH, sumf_cons. ring. Qed.
  Lemma accepted_resid : forall mlh H i xjs, i < m -> (forall j, In j xjs -> j < m) -> (forall h, In h H -> h < m) ->
    indep_of_resid mlh d_ols d_ml H i xjs = true ->
    exists c R, comb R /\ (forall z, cov N R z = (cov N (Y H i) z - sumf xjs (fun p => c p * cov N (Y H p) z))%Qc) /\
      forall j, In j xjs -> forall k, k < m -> cov N R (e k) = 0%Qc \/ cov N (Y H j) (e k) = 0%Qc.
  Proof.
    intros mlh H i xjs Hi Hx HB T. unfold indep_of_resid in T.
    assert (CO : comb (ols_resid ols icpt (Y H) i xjs)) by (apply (ols_resid_comb N m e ols icpt); [apply Y_comb'; assumption|intros p Hp; apply Y_comb'; [apply Hx; exact Hp|exact HB]]).
    destruct (forallb (d_ols H i xjs) xjs) eqn:F.
    - exists (ols (Y H) xjs (Y H i)), (ols_resid ols icpt (Y H) i xjs). split; [exact CO|]. split; [intro z; apply (ols_resid_cov N ols icpt)|].
      intros j Hj k Hk. rewrite forallb_forall in F. specialize (F j Hj). apply (II _ _ CO (Y_comb' H j (Hx j Hj) HB)); [exact F|exact Hk].
    - destruct ((length xjs =? 1) || negb mlh); [discriminate|].
      assert (CM : comb (ml_resid mlcoef (Y H) i xjs)).
      { unfold ml_resid. apply (comb_ext N m e (fun r => Y H i r - sumf xjs (fun p => mlcoef (Y H) i xjs p * Y H p r))%Qc); [intros r _; symmetry; apply ml_fold|].
        apply comb_minus; [apply Y_comb'; assumption|]. apply comb_sumf. intros p Hp. right. apply Y_comb'; [apply Hx; exact Hp|exact HB]. }
      exists (mlcoef (Y H) i xjs), (ml_resid mlcoef (Y H) i xjs). split; [exact CM|]. split.
      + intro z. rewrite <- (cov_wsum N xjs (mlcoef (Y H) i xjs) (Y H) z), <- (cov_minus N (Y H i)). apply cov_ext; [|reflexivity]. intros r _. unfold ml_resid. apply ml_fold.
      + intros j Hj k Hk. rewrite forallb_forall in T. specialize (T j Hj). apply (II _ _ CM (Y_comb' H j (Hx j Hj) HB)); [exact T|exact Hk].
  Qed.

  (** ** Triples, with the common ancestors fully known *)
  (** a correlated neighbour of the accepted residual is a cause *)
  Lemma triple_cause : forall H i a b R ca cb, i < m -> a < m -> b < m -> i <> a -> i <> b -> a <> b ->
    NoDup H -> (forall h, In h H <-> anc h i /\ anc h a /\ anc h b) ->
    ~ anc b i -> cov N (Y H i) (Y H a) <> 0%Qc ->
    comb R -> (forall z, cov N R z = (cov N (Y H i) z - (ca * cov N (Y H a) z + cb * cov N (Y H b) z))%Qc) ->
    (forall k, k < m -> cov N R (e k) = 0%Qc \/ cov N (Y H a) (e k) = 0%Qc) ->
    (forall k, k < m -> cov N R (e k) = 0%Qc \/ cov N (Y H b) (e k) = 0%Qc) ->
    anc a i.
  Proof using LM.
    intros H i a b R ca cb Hi Ha Hb Dia Dib Dab ND HH NBI CIA CR RC RA RB.
    assert (HB : forall h, In h H -> h < m) by (intros h Ih; apply (anc_bound m B h i), HH, Ih).
    assert (H1 : forall h, In h H -> anc h i) by (intros h Ih; apply HH, Ih).
    assert (H2 : forall h, In h H -> anc h a) by (intros h Ih; apply HH in Ih; apply Ih).
    assert (H3 : forall h, In h H -> anc h b) by (intros h Ih; apply HH in Ih; apply Ih).
    assert (CL : closed m B H).
    { intros h p Ih Hp Z. pose proof (HB h Ih) as Hh. pose proof (anc_edge m B h p Hh Hp Z) as A.
      apply HH. split; [exact (anc_trans m B _ _ _ A (H1 h Ih))|]. split; [exact (anc_trans m B _ _ _ A (H2 h Ih))|exact (anc_trans m B _ _ _ A (H3 h Ih))]. }
    assert (Ra : cov N R (e a) = 0%Qc) by (destruct (RA a Ha) as [Z|Z]; [exact Z|contradiction (Y_load_self H a Ha H2)]).
    assert (Rb : cov N R (e b) = 0%Qc) by (destruct (RB b Hb) as [Z|Z]; [exact Z|contradiction (Y_load_self H b Hb H3)]).
    assert (LIB : cov N (Y H i) (e b) = 0%Qc) by (rewrite (Y_load' H i b Hb H3); apply (load_nonanc N m B e x LM i b Hi Hb (not_eq_sym Dib) NBI)).
    assert (zero : forall u v w, (u - (v + w))%Qc = 0%Qc -> u = 0%Qc -> v = 0%Qc -> w = 0%Qc).
    { intros u v w E -> ->. transitivity (- (0 - (0 + w)))%Qc; [ring|rewrite E; ring]. }
    assert (zero' : forall u v w, (u - (v + w))%Qc = 0%Qc -> u = 0%Qc -> w = 0%Qc -> v = 0%Qc).
    { intros u v w E -> ->. transitivity (- (0 - (v + 0)))%Qc; [ring|rewrite E; ring]. }
    rewrite RC in Ra, Rb.
    destruct (anc_decidable a i Ha Hi) as [AI|NAI]; [exact AI|].
      exfalso. assert (LIA : cov N (Y H i) (e a) = 0%Qc) by (rewrite (Y_load' H i a Ha H2); apply (load_nonanc N m B e x LM i a Hi Ha (not_eq_sym Dia) NAI)).
      assert (C0 : ca = 0%Qc /\ cb = 0%Qc).
      { destruct (anc_decidable b a Hb Ha) as [BA|NBA].
        - assert (LBA : cov N (Y H b) (e a) = 0%Qc) by (rewrite (Y_load' H b a Ha H2); apply (load_nonanc N m B e x LM b a Hb Ha Dab); apply (anc_asym N m B e x LM); exact BA).
          assert (ca = 0%Qc) as ->.
          { pose proof (zero' _ _ _ Ra LIA ltac:(rewrite LBA; ring)) as Q. apply Qcmult_integral in Q. destruct Q as [Q|Q]; [exact Q|contradiction (Y_load_self H a Ha H2)]. }
          split; [reflexivity|]. pose proof (zero _ _ _ Rb LIB ltac:(ring)) as Q. apply Qcmult_integral in Q. destruct Q as [Q|Q]; [exact Q|contradiction (Y_load_self H b Hb H3)].
        - assert (LAB : cov N (Y H a) (e b) = 0%Qc) by (rewrite (Y_load' H a b Hb H3); apply (load_nonanc N m B e x LM a b Ha Hb (not_eq_sym Dab) NBA)).
          assert (cb = 0%Qc) as ->.
          { pose proof (zero _ _ _ Rb LIB ltac:(rewrite LAB; ring)) as Q. apply Qcmult_integral in Q. destruct Q as [Q|Q]; [exact Q|contradiction (Y_load_self H b Hb H3)]. }
          split; [|reflexivity]. pose proof (zero' _ _ _ Ra LIA ltac:(ring)) as Q. apply Qcmult_integral in Q. destruct Q as [Q|Q]; [exact Q|contradiction (Y_load_self H a Ha H2)]. }
      destruct C0 as [-> ->]. apply CIA. rewrite <- (disjoint0 R (Y H a) CR RA). rewrite RC. ring.
  Qed.
  Lemma triple_below : forall H i a b, i < m -> a < m -> b < m -> i <> a -> i <> b -> a <> b ->
    NoDup H -> (forall h, In h H <-> anc h i /\ anc h a /\ anc h b) ->
    ~ anc b i -> cov N (Y H a) (Y H b) <> 0%Qc -> anc a i -> anc a b.
  Proof using LM OLS.
    intros H i a b Hi Ha Hb Dia Dib Dab ND HH NBI CAB AI.
    assert (HB : forall h, In h H -> h < m) by (intros h Ih; apply (anc_bound m B h i), HH, Ih).
    assert (CL : closed m B H).
    { intros h p Ih Hp Z. pose proof (HB h Ih) as Hh. pose proof (anc_edge m B h p Hh Hp Z) as A.
      apply HH in Ih. destruct Ih as (I1 & I2 & I3). apply HH. split; [exact (anc_trans m B _ _ _ A I1)|]. split; [exact (anc_trans m B _ _ _ A I2)|exact (anc_trans m B _ _ _ A I3)]. }
    assert (NBA : ~ anc b a) by (intro Q; apply NBI; exact (anc_trans m B _ _ _ Q AI)).
    destruct (anc_decidable a b Ha Hb) as [Q|NAB]; [exact Q|]. exfalso. apply CAB. apply disjoint0; [apply Y_comb'; assumption|]. intros k Hk.
        destruct (in_dec Nat.eq_dec k H) as [I|I]; [left; apply (Y_closed_in N m B e x LM ols icpt OLS H a k ND HB CL I)|].
        rewrite !(Y_closed_out N m B e x LM ols icpt H _ k HB CL Hk I).
        destruct (Nat.eq_dec k a) as [->|Da]; [right; apply (load_nonanc N m B e x LM b a Hb Ha Dab NAB)|].
        destruct (anc_decidable k a Hk Ha) as [KA|NKA]; [|left; apply (load_nonanc N m B e x LM a k Ha Hk Da NKA)].
        right. apply (load_nonanc N m B e x LM b k Hb Hk); [intros ->; contradiction|]. intro KB. apply I, HH. split; [exact (anc_trans m B _ _ _ KA AI)|split; assumption].
  Qed.
  Lemma triple_sink : forall H i a b R ca cb, i < m -> a < m -> b < m -> i <> a -> i <> b -> a <> b ->
    NoDup H -> (forall h, In h H <-> anc h i /\ anc h a /\ anc h b) ->
    ~ anc b i -> anc a i -> anc a b ->
    comb R -> (forall z, cov N R z = (cov N (Y H i) z - (ca * cov N (Y H a) z + cb * cov N (Y H b) z))%Qc) ->
    (forall k, k < m -> cov N R (e k) = 0%Qc \/ cov N (Y H a) (e k) = 0%Qc) ->
    (forall k, k < m -> cov N R (e k) = 0%Qc \/ cov N (Y H b) (e k) = 0%Qc) ->
    forall ps, NoDup ps -> (forall q, In q ps <-> q = i \/ q = a) -> d_ols H b ps i = true /\ d_ols H b ps a = true.
  Proof using LM OLS II.
    intros H i a b R ca cb Hi Ha Hb Dia Dib Dab ND HH NBI AI AB CR RC RA RB.
    assert (HB : forall h, In h H -> h < m) by (intros h Ih; apply (anc_bound m B h i), HH, Ih).
    assert (H1 : forall h, In h H -> anc h i) by (intros h Ih; apply HH, Ih).
    assert (H2 : forall h, In h H -> anc h a) by (intros h Ih; apply HH in Ih; apply Ih).
    assert (H3 : forall h, In h H -> anc h b) by (intros h Ih; apply HH in Ih; apply Ih).
    assert (CL : closed m B H).
    { intros h p Ih Hp Z. pose proof (HB h Ih) as Hh. pose proof (anc_edge m B h p Hh Hp Z) as A.
      apply HH. split; [exact (anc_trans m B _ _ _ A (H1 h Ih))|]. split; [exact (anc_trans m B _ _ _ A (H2 h Ih))|exact (anc_trans m B _ _ _ A (H3 h Ih))]. }
    assert (Ra : cov N R (e a) = 0%Qc) by (destruct (RA a Ha) as [Z|Z]; [exact Z|contradiction (Y_load_self H a Ha H2)]).
    assert (Rb : cov N R (e b) = 0%Qc) by (destruct (RB b Hb) as [Z|Z]; [exact Z|contradiction (Y_load_self H b Hb H3)]).
    assert (LIB : cov N (Y H i) (e b) = 0%Qc) by (rewrite (Y_load' H i b Hb H3); apply (load_nonanc N m B e x LM i b Hi Hb (not_eq_sym Dib) NBI)).
    assert (zero : forall u v w, (u - (v + w))%Qc = 0%Qc -> u = 0%Qc -> v = 0%Qc -> w = 0%Qc).
    { intros u v w E -> ->. transitivity (- (0 - (0 + w)))%Qc; [ring|rewrite E; ring]. }
    assert (zero' : forall u v w, (u - (v + w))%Qc = 0%Qc -> u = 0%Qc -> w = 0%Qc -> v = 0%Qc).
    { intros u v w E -> ->. transitivity (- (0 - (v + 0)))%Qc; [ring|rewrite E; ring]. }
    rewrite RC in Ra, Rb.
      assert (NBA : ~ anc b a) by (intro Q; apply NBI; exact (anc_trans m B _ _ _ Q AI)).
      assert (CB0 : cb = 0%Qc).
      { assert (LAB : cov N (Y H a) (e b) = 0%Qc) by (rewrite (Y_load' H a b Hb H3); apply (load_nonanc N m B e x LM a b Ha Hb (not_eq_sym Dab) NBA)).
        pose proof (zero _ _ _ Rb LIB ltac:(rewrite LAB; ring)) as Q. apply Qcmult_integral in Q. destruct Q as [Q|Q]; [exact Q|contradiction (Y_load_self H b Hb H3)]. }
      assert (HA : forall h, In h H <-> anc h a).
      { intro h. rewrite HH. split; [intros (_ & Q & _); exact Q|]. intro Q. split; [exact (anc_trans m B _ _ _ Q AI)|]. split; [exact Q|exact (anc_trans m B _ _ _ Q AB)]. }
      intros ps NDp Hp.
      set (V := cov N (Y H a) (e a)) in *. assert (Vnz : V <> 0%Qc) by (apply (Y_load_self H a Ha H2)).
      set (tau := (cov N (Y H b) (e a) / V)%Qc).
      set (Q := fun r => (Y H b r - tau * Y H a r)%Qc).
      assert (QC : forall z, cov N Q z = (cov N (Y H b) z - tau * cov N (Y H a) z)%Qc) by (intro z; unfold Q; rewrite (cov_minus N (Y H b) (fun r => tau * Y H a r)%Qc), (cov_scal N tau (Y H a)); reflexivity).
      assert (CQ : comb Q) by (apply (comb_ext N m e (fun r => 1 * Y H b r + - tau * Y H a r)%Qc); [intros; unfold Q; ring|apply comb_lin; apply Y_comb'; assumption]).
      assert (Qa : cov N Q (e a) = 0%Qc) by (rewrite QC; fold V; unfold tau; field; exact Vnz).
      assert (PA : forall k, k < m -> k <> a -> cov N (Y H a) (e k) = 0%Qc) by (apply (Y_pure H a Ha ND HA)).
      assert (QYa : cov N Q (Y H a) = 0%Qc).
      { apply disjoint0; [exact CQ|]. intros k Hk. destruct (Nat.eq_dec k a) as [->|D]; [left; exact Qa|right; apply PA; assumption]. }
      assert (YI : forall z, cov N (Y H i) z = (cov N R z + ca * cov N (Y H a) z)%Qc) by (intro z; rewrite RC, CB0; ring).
      assert (QYi : cov N Q (Y H i) = 0%Qc).
      { rewrite cov_sym, YI, (cov_sym N (Y H a) Q), QYa, (cov_sym N R Q), QC, (cov_sym N (Y H b) R), (cov_sym N (Y H a) R).
        rewrite (disjoint0 R (Y H b) CR RB), (disjoint0 R (Y H a) CR RA). ring. }
      set (Rb' := ols_resid ols icpt (Y H) b ps). set (d := ols (Y H) ps (Y H b)).
      assert (RBC : forall z, cov N Rb' z = (cov N (Y H b) z - (d i * cov N (Y H i) z + d a * cov N (Y H a) z))%Qc).
      { intro z. unfold Rb'. rewrite (ols_resid_cov N ols icpt). rewrite (sumf_two ps i a _ NDp Dia Hp). reflexivity. }
      assert (Oi : cov N Rb' (Y H i) = 0%Qc) by (apply (ols_resid_orth N ols icpt OLS); [exact NDp|apply Hp; left; reflexivity]).
      assert (Oa : cov N Rb' (Y H a) = 0%Qc) by (apply (ols_resid_orth N ols icpt OLS); [exact NDp|apply Hp; right; reflexivity]).
      set (D := fun r => (Rb' r - Q r)%Qc).
      assert (DC : forall z, cov N D z = (cov N Rb' z - cov N Q z)%Qc) by (intro z; unfold D; apply cov_minus).
      assert (VD : var N D = 0%Qc).
      { unfold var. rewrite DC, RBC, QC.
        assert (DI : cov N (Y H i) D = 0%Qc) by (rewrite cov_sym, DC, Oi, QYi; ring).
        assert (DA : cov N (Y H a) D = 0%Qc) by (rewrite cov_sym, DC, Oa, QYa; ring). rewrite DI, DA. ring. }
      assert (RQ : forall z, cov N Rb' z = cov N Q z).
      { intro z. pose proof (var_zero N D z (lm_rows N m B e x a LM Ha) VD) as W. rewrite DC in W. transitivity (cov N Rb' z - cov N Q z + cov N Q z)%Qc; [ring|rewrite W; ring]. }
      assert (CRb : comb Rb') by (apply (ols_resid_comb N m e ols icpt); [apply Y_comb'; assumption|intros p Ip; apply Hp in Ip; destruct Ip as [-> | ->]; apply Y_comb'; assumption]).
      split; (apply II; [exact CRb|apply Y_comb'; assumption|]; intros k Hk; rewrite RQ; destruct (Nat.eq_dec k a) as [->|Dk]; [left; exact Qa|]).
      + rewrite QC, (PA k Hk Dk). destruct (RB k Hk) as [Z|Z]; [right; rewrite YI, Z, (PA k Hk Dk); ring|left; rewrite Z; ring].
      + right. apply (PA k Hk Dk).
  Qed.
  Lemma triple_second_sink : forall H i a b R ca cb, i < m -> a < m -> b < m -> i <> a -> i <> b -> a <> b ->
    NoDup H -> (forall h, In h H <-> anc h i /\ anc h a /\ anc h b) ->
    ~ anc b i -> cov N (Y H i) (Y H a) <> 0%Qc -> cov N (Y H a) (Y H b) <> 0%Qc ->
    comb R -> (forall z, cov N R z = (cov N (Y H i) z - (ca * cov N (Y H a) z + cb * cov N (Y H b) z))%Qc) ->
    (forall k, k < m -> cov N R (e k) = 0%Qc \/ cov N (Y H a) (e k) = 0%Qc) ->
    (forall k, k < m -> cov N R (e k) = 0%Qc \/ cov N (Y H b) (e k) = 0%Qc) ->
    ~ anc b a /\ forall ps, NoDup ps -> (forall q, In q ps <-> q = i \/ q = a) -> d_ols H b ps i = true /\ d_ols H b ps a = true.
  Proof using LM OLS NC II.
    intros H i a b R ca cb Hi Ha Hb Dia Dib Dab ND HH NBI CIA CAB CR RC RA RB.
    pose proof (triple_cause H i a b R ca cb Hi Ha Hb Dia Dib Dab ND HH NBI CIA CR RC RA RB) as AI.
    pose proof (triple_below H i a b Hi Ha Hb Dia Dib Dab ND HH NBI CAB AI) as AB.
    split; [intro Q; apply NBI; exact (anc_trans m B _ _ _ Q AI)|].
    exact (triple_sink H i a b R ca cb Hi Ha Hb Dia Dib Dab ND HH NBI AI AB CR RC RA RB).
  Qed.
End Decide.
