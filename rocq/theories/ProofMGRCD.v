(** * MultiGroupRCD on model data *)
From Coq Require Import List Arith Bool ZArith QArith Qcanon Lia Permutation Relations.
From Verif Require Import Prelude Spec Lib LibMat Loop SpecPop SpecRCDPop SpecMGRCD ModelRCD ModelRCDPop ModelMGRCD ProofRCD ProofEffect ProofPop ProofPop2 ProofPop3 ProofRCDPop ProofRCDPop2 ProofRCDPop3 ProofRCDPop4 OlsGS.
Import ListNotations.
Open Scope nat_scope.

Lemma ancestor_same : forall n B B', (forall j i, edge_of n B j i -> edge_of n B' j i) -> forall j i, ancestor n B j i -> ancestor n B' j i.
Proof. intros n B B' E j i A. induction A as [a b H|a b c _ IH1 _ IH2]; [apply t_step, E, H|exact (t_trans _ _ _ _ _ IH1 IH2)]. Qed.

Section Joint.
  Variables (n : nat) (Gs : list group) (mlh : bool).
  Hypothesis OG : one_graph n Gs.
  Hypothesis SS : seen_somewhere n Gs.
  Variables (ols : nat -> (nat -> sample) -> list nat -> sample -> nat -> Qc) (icpt : nat -> (nat -> sample) -> list nat -> sample -> Qc).
  Hypothesis OLS : forall g, In g Gs -> solves_least_squares (g_rows g) (ols (g_rows g)).
  Variable mlcoef : nat -> (nat -> sample) -> nat -> list nat -> nat -> Qc.
  Variables (ngt : list (nat * sample) -> bool) (cot int : list (nat * sample * sample) -> bool).
  Hypothesis JC : joint_correlation n Gs cot.
  Hypothesis JI : joint_independence n Gs int.
  Hypothesis JN : joint_normality n Gs ngt.
  Variable g0 : group.
  Hypothesis G0 : In g0 Gs.
  Notation B0 := (g_B g0).
  Notation anc := (ancestor n B0).
  Notation Xs := (map data_of Gs).
  Notation R := (g_resid ols icpt).
  Definition YG (g : group) (H : list nat) (i : nat) : sample := resid_given (ols (g_rows g)) (icpt (g_rows g)) (g_x g) H i.
  Definition ng (H : list nat) (j : nat) : bool := ngt (map (fun D => (fst D, R D H j)) Xs).
  Definition co (H : list nat) (i j : nat) : bool := cot (map (fun D => (fst D, R D H i, R D H j)) Xs).
  Definition co2 (a : nat) (Ha : list nat) (b : nat) (Hb : list nat) : bool := cot (map (fun D => (fst D, R D Ha a, R D Hb b)) Xs).
  Definition io (H : list nat) (i : nat) (xjs : list nat) (j : nat) : bool :=
    int (map (fun D => (fst D, ols_resid (ols (fst D)) (icpt (fst D)) (R D H) i xjs, R D H j)) Xs).
  Definition im (H : list nat) (i : nat) (xjs : list nat) (j : nat) : bool :=
    int (map (fun D => (fst D, ml_resid (mlcoef (fst D)) (R D H) i xjs, R D H j)) Xs).

  Lemma LMg : forall g, In g Gs -> linear_model (g_rows g) n (g_B g) (g_e g) (g_x g).
  Proof. apply OG. Qed.
  Lemma anc_g : forall g j i, In g Gs -> (ancestor n (g_B g) j i <-> anc j i).
  Proof. intros g j i I. split; apply ancestor_same; intros a b; apply OG; assumption. Qed.
  Lemma edge_g : forall g j i, In g Gs -> (edge_of n (g_B g) j i <-> edge_of n B0 j i).
  Proof. intros g j i I. split; apply OG; assumption. Qed.
  Lemma acy0 : acyclic (edge_of n B0).
  Proof. exact (lm_acyclic _ _ _ _ _ (LMg g0 G0)). Qed.
  Lemma Y_ok : forall g H i, In g Gs -> i < n -> (forall h, In h H -> h < n) -> combination (g_rows g) n (g_e g) (YG g H i).
  Proof. intros g H i I Hi HB. exact (Y_comb' _ n _ _ _ (LMg g I) (ols (g_rows g)) (icpt (g_rows g)) H i Hi HB). Qed.
  Lemma OR_ok : forall g H i xjs, In g Gs -> i < n -> (forall j, In j xjs -> j < n) -> (forall h, In h H -> h < n) ->
    combination (g_rows g) n (g_e g) (ols_resid (ols (g_rows g)) (icpt (g_rows g)) (YG g H) i xjs).
  Proof. intros g H i xjs I Hi Hx HB. apply ols_resid_comb; [apply Y_ok; assumption|]. intros p Hp. apply Y_ok; [assumption|apply Hx; exact Hp|assumption]. Qed.
  Lemma ML_ok : forall g H i xjs, In g Gs -> i < n -> (forall j, In j xjs -> j < n) -> (forall h, In h H -> h < n) ->
    combination (g_rows g) n (g_e g) (ml_resid (mlcoef (g_rows g)) (YG g H) i xjs).
  Proof.
    intros g H i xjs I Hi Hx HB. unfold ml_resid.
    apply (comb_ext _ n _ (fun r => YG g H i r - sumf xjs (fun p => mlcoef (g_rows g) (YG g H) i xjs p * YG g H p r))%Qc); [intros r _; symmetry; apply ml_fold|].
    apply comb_minus; [apply Y_ok; assumption|]. apply comb_sumf. intros p Hp. right. apply Y_ok; [assumption|apply Hx; exact Hp|assumption].
  Qed.
  Lemma co2_iff : forall a Ha b Hb, a < n -> b < n -> (forall h, In h Ha -> h < n) -> (forall h, In h Hb -> h < n) ->
    (co2 a Ha b Hb = true <-> exists g, In g Gs /\ cov (g_rows g) (YG g Ha a) (YG g Hb b) <> 0%Qc).
  Proof.
    intros a Ha b Hb La Lb BA BB. unfold co2. rewrite map_map. apply (JC (fun g => YG g Ha a) (fun g => YG g Hb b)).
    intros g I. split; apply Y_ok; assumption.
  Qed.
  Lemma co_iff : forall H i j, i < n -> j < n -> (forall h, In h H -> h < n) ->
    (co H i j = true <-> exists g, In g Gs /\ cov (g_rows g) (YG g H i) (YG g H j) <> 0%Qc).
  Proof. intros H i j Hi Hj HB. apply (co2_iff i H j H Hi Hj HB HB). Qed.
  Notation dol g := (d_ols (ols (g_rows g)) (icpt (g_rows g)) (ex_ind (g_rows g) n (g_e g)) (g_x g)).
  Notation dml g := (d_ml (ols (g_rows g)) (icpt (g_rows g)) (ex_ind (g_rows g) n (g_e g)) (mlcoef (g_rows g)) (g_x g)).
  Lemma io_iff : forall H i xjs j, i < n -> j < n -> (forall q, In q xjs -> q < n) -> (forall h, In h H -> h < n) ->
    (io H i xjs j = true <-> forall g, In g Gs -> dol g H i xjs j = true).
  Proof.
    intros H i xjs j Hi Hj Hx HB. unfold io. rewrite map_map.
    etransitivity; [apply (JI (fun g => ols_resid (ols (g_rows g)) (icpt (g_rows g)) (YG g H) i xjs) (fun g => YG g H j))|].
    - intros g I. split; [apply OR_ok; assumption|apply Y_ok; assumption].
    - split; intros F g I; [apply (proj2 (ex_ind_ideal (g_rows g) n (g_e g) _ _ (OR_ok g H i xjs I Hi Hx HB) (Y_ok g H j I Hj HB))); exact (F g I)|exact (proj1 (ex_ind_ideal (g_rows g) n (g_e g) _ _ (OR_ok g H i xjs I Hi Hx HB) (Y_ok g H j I Hj HB)) (F g I))].
  Qed.
  Lemma im_iff : forall H i xjs j, i < n -> j < n -> (forall q, In q xjs -> q < n) -> (forall h, In h H -> h < n) ->
    (im H i xjs j = true <-> forall g, In g Gs -> dml g H i xjs j = true).
  Proof.
    intros H i xjs j Hi Hj Hx HB. unfold im. rewrite map_map.
    etransitivity; [apply (JI (fun g => ml_resid (mlcoef (g_rows g)) (YG g H) i xjs) (fun g => YG g H j))|].
    - intros g I. split; [apply ML_ok; assumption|apply Y_ok; assumption].
    - split; intros F g I; [apply (proj2 (ex_ind_ideal (g_rows g) n (g_e g) _ _ (ML_ok g H i xjs I Hi Hx HB) (Y_ok g H j I Hj HB))); exact (F g I)|exact (proj1 (ex_ind_ideal (g_rows g) n (g_e g) _ _ (ML_ok g H i xjs I Hi Hx HB) (Y_ok g H j I Hj HB)) (F g I))].
  Qed.
  Lemma indep_g : forall H i xjs g, i < n -> (forall q, In q xjs -> q < n) -> (forall h, In h H -> h < n) -> In g Gs ->
    indep_of_resid mlh io im H i xjs = true -> indep_of_resid mlh (dol g) (dml g) H i xjs = true.
  Proof.
    intros H i xjs g Hi Hx HB I T. unfold indep_of_resid in *.
    destruct (forallb (io H i xjs) xjs) eqn:F.
    - replace (forallb (dol g H i xjs) xjs) with true; [reflexivity|]. symmetry. apply forallb_forall. intros q Iq. rewrite forallb_forall in F.
      apply (proj1 (io_iff H i xjs q Hi (Hx q Iq) Hx HB) (F q Iq) g I).
    - destruct (forallb (dol g H i xjs) xjs); [reflexivity|]. destruct ((length xjs =? 1) || negb mlh); [discriminate|].
      rewrite forallb_forall in *. intros q Iq. apply (proj1 (im_iff H i xjs q Hi (Hx q Iq) Hx HB) (T q Iq) g I).
  Qed.

  Lemma joint_pairs : forall H i j, i < n -> j < n -> i <> j -> (forall h, In h H -> anc h i /\ anc h j) ->
    co H i j = true \/ co H j i = true -> io H i [j] j = true -> anc j i.
  Proof.
    intros H i j Hi Hj D HH C T.
    assert (HB : forall h, In h H -> h < n) by (intros h Ih; apply (anc_bound n B0 h i), HH, Ih).
    assert (CC : exists g, In g Gs /\ cov (g_rows g) (YG g H i) (YG g H j) <> 0%Qc).
    { destruct C as [C|C]; [apply co_iff in C; assumption|]. apply co_iff in C; [|assumption|assumption|assumption]. destruct C as (g & I & C). exists g. split; [exact I|]. rewrite cov_sym. exact C. }
    destruct CC as (g & I & CC). apply (anc_g g j i I).
    apply (pair_sound0 _ n _ _ _ (LMg g I) (ols (g_rows g)) (icpt (g_rows g)) (OLS g I) _ _ (ex_corr_ideal (g_rows g) n (g_e g)) (ex_ind_ideal (g_rows g) n (g_e g)) H i j Hi Hj D).
    - intros h Ih. rewrite !(anc_g g _ _ I). apply HH. exact Ih.
    - apply (ex_corr_ideal (g_rows g) n (g_e g)); [apply Y_ok; assumption|apply Y_ok; assumption|exact CC].
    - apply (proj1 (io_iff H i [j] j Hi Hj ltac:(intros q [<-|[]]; exact Hj) HB) T g I).
  Qed.
  Lemma joint_cause : forall H i j, anc j i -> NoDup H -> (forall h, In h H <-> anc h j) ->
    co H i j = true /\ co H j i = true /\ io H i [j] j = true /\ io H j [i] i = false.
  Proof.
    intros H i j A ND HH. destruct (anc_bound n B0 j i A) as [Hj Hi].
    assert (HB : forall h, In h H -> h < n) by (intros h Ih; apply (anc_bound n B0 h j), HH, Ih).
    destruct (SS g0 j i G0 A) as (g & I & LD).
    assert (HG : forall g, In g Gs -> forall h, In h H <-> ancestor n (g_B g) h j) by (intros g' I' h; rewrite (anc_g g' _ _ I'); apply HH).
    destruct (pair_dep _ n _ _ _ (LMg g I) (ols (g_rows g)) (icpt (g_rows g)) (OLS g I) _ _ (ex_corr_ideal (g_rows g) n (g_e g)) (ex_ind_ideal (g_rows g) n (g_e g)) H i j Hi Hj (proj2 (anc_g g j i I) A) LD ND (HG g I)) as (C1 & C2 & T2).
    apply (ex_corr_ideal (g_rows g) n (g_e g)) in C1; [|apply Y_ok; assumption|apply Y_ok; assumption].
    apply (ex_corr_ideal (g_rows g) n (g_e g)) in C2; [|apply Y_ok; assumption|apply Y_ok; assumption].
    split; [apply co_iff; try assumption; exists g; split; assumption|]. split; [apply co_iff; try assumption; exists g; split; assumption|]. split.
    - apply io_iff; try assumption; [intros q [<-|[]]; exact Hj|]. intros g' I'.
      apply (pair_indep _ n _ _ _ (LMg g' I') (ols (g_rows g')) (icpt (g_rows g')) (OLS g' I') _ (ex_ind_ideal (g_rows g') n (g_e g')) H i j Hi Hj ND (HG g' I')).
    - destruct (io H j [i] i) eqn:T; [|reflexivity]. exfalso. rewrite io_iff in T; try assumption; [|intros q [<-|[]]; exact Hi]. rewrite (T g I) in T2. discriminate.
  Qed.
  Lemma joint_ng : forall H j, j < n -> (forall h, In h H -> anc h j) -> ng H j = true.
  Proof.
    intros H j Hj HH. unfold ng. rewrite map_map. apply (JN (fun g => YG g H j)). intros g I. split; [apply Y_ok; try assumption; intros h Ih; apply (anc_bound n B0 h j), HH, Ih|].
    apply (Y_variance _ n _ _ _ (LMg g I) (ols (g_rows g)) (icpt (g_rows g)) H j Hj). intros h Ih. apply (anc_g g h j I), HH, Ih.
  Qed.
  Lemma joint_triple : forall M U i xj, exact n B0 M -> In U (combs 3 (seq 0 n)) ->
    (forall u v, In (u, v) (pairs U) -> co (common_ancestors n M U) u v = true) ->
    sinks mlh io im M (common_ancestors n M U) U = [i] -> In xj (remove_nat i U) -> M i xj = false -> False.
  Proof.
    intros M U i xj EX IU HC SK Ij MF. destruct (combs_In _ _ _ IU) as [L HU]. pose proof (combs_NoDup_elem _ _ _ (seq_NoDup n 0) IU) as ND.
    assert (UB : forall w, In w U -> w < n) by (intros w Iw; apply HU, in_seq in Iw; lia).
    assert (S : sound n B0 n M) by (intros i0 j0 Q; apply EX in Q; destruct (anc_bound n B0 j0 i0 Q); split; [lia|split; [lia|exact Q]]).
    set (H := common_ancestors n M U) in *.
    assert (NE : U <> []) by (intros ->; discriminate).
    assert (HB : forall h, In h H -> h < n) by (intros h Ih; apply (common_bound n B0 n M U h S NE Ih)).
    assert (NDH : NoDup H) by apply common_NoDup.
    assert (Isk : In i (sinks mlh io im M H U)) by (rewrite SK; left; reflexivity). apply sinks_In in Isk. destruct Isk as (Ii & XA & T).
    assert (Lr : length (remove_nat i U) = 2).
    { pose proof (Permutation_length (remove_nat_perm i U ND Ii)) as PL. cbn in PL. lia. }
    assert (NDr : NoDup (remove_nat i U)) by (apply NoDup_filter; exact ND).
    assert (Ir : forall q, In q (remove_nat i U) <-> In q U /\ q <> i) by (intro q; apply remove_nat_In).
    assert (BNA : forall q, In q (remove_nat i U) -> ~ anc i q) by (intros q Iq A; apply EX in A; rewrite (exists_ancestor_false M i _ XA q Iq) in A; discriminate).
    assert (RES : forall g, In g Gs -> exists c Rg, combination (g_rows g) n (g_e g) Rg /\ (forall z, cov (g_rows g) Rg z = (cov (g_rows g) (YG g H i) z - sumf (remove_nat i U) (fun p => c p * cov (g_rows g) (YG g H p) z))%Qc) /\
      forall j, In j (remove_nat i U) -> forall k, k < n -> cov (g_rows g) Rg (g_e g k) = 0%Qc \/ cov (g_rows g) (YG g H j) (g_e g k) = 0%Qc).
    { intros g I. apply (accepted_resid _ n _ _ _ (LMg g I) (ols (g_rows g)) (icpt (g_rows g)) _ (mlcoef (g_rows g)) (ex_ind_ideal (g_rows g) n (g_e g)) mlh H i (remove_nat i U) (UB i Ii)); [intros j Ij'; apply UB; apply Ir; exact Ij'|exact HB|].
      apply indep_g; [apply UB; exact Ii|intros j Ij'; apply UB; apply Ir; exact Ij'|exact HB|exact I|exact T]. }
    destruct (remove_nat i U) as [|a [|b [|z r]]] eqn:ER; try discriminate. clear Lr.
    assert (Dab : a <> b) by (intros ->; inversion NDr as [|? ? Q _]; apply Q; left; reflexivity).
    assert (Fa : In a U /\ a <> i) by (apply Ir; left; reflexivity). assert (Fb : In b U /\ b <> i) by (apply Ir; right; left; reflexivity).
    assert (IU3 : forall q, In q U <-> q = i \/ q = a \/ q = b).
    { intro q. split.
      - intro Iq. destruct (Nat.eq_dec q i) as [->|D]; [auto|]. right. assert (Q : In q [a; b]) by (apply Ir; auto). destruct Q as [<-|[<-|[]]]; auto.
      - intros [-> |[-> | ->]]; [exact Ii|apply Fa|apply Fb]. }
    assert (HH : forall h, In h H <-> anc h i /\ anc h a /\ anc h b).
    { intro h. split.
      - intro Ih. split; [|split]; apply (common_anc n B0 n M U h S Ih); [exact Ii|apply Fa|apply Fb].
      - intros (A1 & A2 & A3). apply common_In. split; [apply (anc_bound n B0 h i A1)|]. intros w Iw. apply IU3 in Iw. apply EX. destruct Iw as [-> |[-> | ->]]; assumption. }
    assert (CV : forall p q, In p U -> In q U -> p <> q -> exists g, In g Gs /\ cov (g_rows g) (YG g H p) (YG g H q) <> 0%Qc).
    { intros p q Ip Iq D. destruct (precedes_total U p q Ip Iq D) as [P|P]; apply pairs_In_conv in P; apply HC in P; apply co_iff in P; try (apply UB; assumption); try exact HB; [exact P|].
      destruct P as (g & I & P). exists g. split; [exact I|]. rewrite cov_sym. exact P. }
    assert (CONTRA : forall p q, In p U -> In q U -> p <> q -> p <> i -> q <> i -> In p [a; b] -> In q [a; b] -> ~ anc q i ->
      (forall g, In g Gs -> exists cp cq Rg, combination (g_rows g) n (g_e g) Rg /\ (forall z, cov (g_rows g) Rg z = (cov (g_rows g) (YG g H i) z - (cp * cov (g_rows g) (YG g H p) z + cq * cov (g_rows g) (YG g H q) z))%Qc) /\
        forall j, In j [a; b] -> forall k, k < n -> cov (g_rows g) Rg (g_e g k) = 0%Qc \/ cov (g_rows g) (YG g H j) (g_e g k) = 0%Qc) -> False).
    { intros p q Ip Iq D Dpi Dqi Ip' Iq' NA RR.
      assert (HPQ : forall g, In g Gs -> forall h, In h H <-> ancestor n (g_B g) h i /\ ancestor n (g_B g) h p /\ ancestor n (g_B g) h q).
      { intros g I h. rewrite !(anc_g g _ _ I), HH. destruct Ip' as [<-|[<-|[]]]; destruct Iq' as [<-|[<-|[]]]; try congruence; tauto. }
      assert (NAg : forall g, In g Gs -> ~ ancestor n (g_B g) q i) by (intros g I; rewrite (anc_g g _ _ I); exact NA).
      assert (PI : anc p i).
      { destruct (CV i p Ii Ip (not_eq_sym Dpi)) as (g & I & C). destruct (RR g I) as (cp & cq & Rg & CR & RC & RI). apply (anc_g g p i I).
        exact (triple_cause _ n _ _ _ (LMg g I) (ols (g_rows g)) (icpt (g_rows g)) H i p q Rg cp cq (UB i Ii) (UB p Ip) (UB q Iq) (not_eq_sym Dpi) (not_eq_sym Dqi) D NDH (HPQ g I) (NAg g I) C CR RC (RI p Ip') (RI q Iq')). }
      assert (PQ : anc p q).
      { destruct (CV p q Ip Iq D) as (g & I & C). apply (anc_g g p q I).
        exact (triple_below _ n _ _ _ (LMg g I) (ols (g_rows g)) (icpt (g_rows g)) (OLS g I) H i p q (UB i Ii) (UB p Ip) (UB q Iq) (not_eq_sym Dpi) (not_eq_sym Dqi) D NDH (HPQ g I) (NAg g I) C (proj2 (anc_g g p i I) PI)). }
      assert (NQP : ~ anc q p) by (intro Q; exact (NA (anc_trans n B0 _ _ _ Q PI))).
      assert (IQS : In q (sinks mlh io im M H U)).
      { apply sinks_In. split; [exact Iq|].
        assert (RQ : forall w, In w (remove_nat q U) <-> w = i \/ w = p).
        { intro w. rewrite remove_nat_In, IU3. split.
          - intros [[->|Q] D']; [auto|]. right. destruct Ip' as [<-|[<-|[]]]; destruct Iq' as [<-|[<-|[]]]; try congruence; destruct Q as [-> | ->]; congruence.
          - intros [-> | ->]; [split; [auto|congruence]|]. split; [|exact D]. destruct Ip' as [<-|[<-|[]]]; auto. }
        assert (NDq : NoDup (remove_nat q U)) by (apply NoDup_filter; exact ND).
        assert (BQ : forall w, In w (remove_nat q U) -> w < n) by (intros w Iw; apply RQ in Iw; destruct Iw as [-> | ->]; apply UB; assumption).
        assert (ACC : forall g, In g Gs -> dol g H q (remove_nat q U) i = true /\ dol g H q (remove_nat q U) p = true).
        { intros g I. destruct (RR g I) as (cp & cq & Rg & CR & RC & RI).
          exact (triple_sink _ n _ _ _ (LMg g I) (ols (g_rows g)) (icpt (g_rows g)) (OLS g I) _ (ex_ind_ideal (g_rows g) n (g_e g)) H i p q Rg cp cq (UB i Ii) (UB p Ip) (UB q Iq) (not_eq_sym Dpi) (not_eq_sym Dqi) D NDH (HPQ g I) (NAg g I)
            (proj2 (anc_g g p i I) PI) (proj2 (anc_g g p q I) PQ) CR RC (RI p Ip') (RI q Iq') (remove_nat q U) NDq RQ). }
        split.
        - unfold exists_ancestor. apply orb_false_iff. split.
          + apply not_true_is_false. intro Q. apply existsb_exists in Q. destruct Q as (w & Iw & Q). apply RQ in Iw. apply EX in Q. destruct Iw as [-> | ->]; contradiction.
          + apply not_true_is_false. intro Q. rewrite forallb_forall in Q. assert (Q' : M q i = true) by (apply Q, RQ; left; reflexivity). apply EX in Q'. exact (BNA q Iq' Q').
        - unfold indep_of_resid. replace (forallb (io H q (remove_nat q U)) (remove_nat q U)) with true; [reflexivity|].
          symmetry. apply forallb_forall. intros w Iw. apply io_iff; [apply UB; exact Iq|apply BQ; exact Iw|exact BQ|exact HB|]. intros g I. apply RQ in Iw. destruct Iw as [-> | ->]; [exact (proj1 (ACC g I))|exact (proj2 (ACC g I))]. }
      rewrite SK in IQS. destruct IQS as [Q|[]]. congruence. }
    assert (NX : ~ anc xj i) by (intro A; apply EX in A; congruence).
    destruct Ij as [<-|[<-|[]]].
    - apply (CONTRA b a); [apply Fb|apply Fa|congruence|apply Fb|apply Fa|right; left; reflexivity|left; reflexivity|exact NX|].
      intros g I. destruct (RES g I) as (c & Rg & CR & RC & RI). exists (c b), (c a), Rg. split; [exact CR|]. split; [|exact RI]. intro z. rewrite RC, !sumf_cons, sumf_nil. ring.
    - apply (CONTRA a b); [apply Fa|apply Fb|exact Dab|apply Fa|apply Fb|left; reflexivity|right; left; reflexivity|exact NX|].
      intros g I. destruct (RES g I) as (c & Rg & CR & RC & RI). exists (c a), (c b), Rg. split; [exact CR|]. split; [|exact RI]. intro z. rewrite RC, !sumf_cons, sumf_nil. ring.
  Qed.
  Lemma joint_search : forall maxl k M, maxl <= 2 -> 1 <= maxl -> rcd_ancestors n maxl mlh ng co io im k = inr M -> exact n B0 M.
  Proof. exact (search_exact_from n B0 n mlh ng co io im (le_n n) joint_pairs eq_refl acy0 joint_cause joint_ng joint_triple). Qed.

  (** ** Parents, confounders, matrices *)
  Variable M : sets.
  Hypothesis EX : exact n B0 M.
  Lemma EXg : forall g, In g Gs -> forall i j, M i j = true <-> ancestor n (g_B g) j i.
  Proof. intros g I i j. rewrite (anc_g g j i I). apply EX. Qed.
  Notation P := (rcd_parents n co2 M).
  Notation Pg g := (rcd_parents n (d_cor2 (ols (g_rows g)) (icpt (g_rows g)) (ex_corr (g_rows g)) (g_x g)) M).
  Lemma elems_lt : forall p h, In h (elems n p) -> h < n.
  Proof. intros p h I. apply elems_In in I. apply I. Qed.
  Lemma joint_parents : forall i j, P i j = true <-> edge_of n B0 j i.
  Proof.
    intros i j. unfold rcd_parents. rewrite andb_true_iff, (EX i j).
    assert (T : anc j i -> (co2 j (elems n (fun v => M i v && M j v)) i (elems n (fun v => M i v && negb (v =? j))) = true <-> edge_of n B0 j i)).
    { intro A. destruct (anc_bound n B0 j i A) as [Hj Hi]. rewrite co2_iff; [|exact Hj|exact Hi|apply elems_lt|apply elems_lt]. split.
      - intros (g & I & C). apply (edge_g g j i I). split; [exact Hi|]. split; [exact Hj|]. intro Z. apply C. unfold YG.
        rewrite (parent_cov _ n _ _ _ (LMg g I) (ols (g_rows g)) (icpt (g_rows g)) (OLS g I) M (EXg g I) i j (proj2 (anc_g g j i I) A)), Z. ring.
      - intro ED. exists g0. split; [exact G0|]. intro Z. unfold YG in Z.
        rewrite (parent_cov _ n _ _ _ (LMg g0 G0) (ols (g_rows g0)) (icpt (g_rows g0)) (OLS g0 G0) M (EXg g0 G0) i j A) in Z.
        destruct (Qcmult_integral _ _ Z) as [Z'|Z']; [exact (proj2 (proj2 ED) Z')|]. revert Z'.
        apply (resid_var _ n _ _ _ (LMg g0 G0) (ols (g_rows g0)) (icpt (g_rows g0)) j (fun v => M i v && negb (v =? j)) Hj). rewrite Nat.eqb_refl. apply andb_false_r. }
    split.
    - intros [A C]. apply T; assumption.
    - intro ED. assert (A : anc j i) by (apply t_step; exact ED). split; [exact A|]. apply T; assumption.
  Qed.
  Lemma parents_g : forall g, In g Gs -> forall i j, P i j = Pg g i j.
  Proof.
    intros g I i j. apply eq_true_iff_eq. rewrite joint_parents.
    rewrite (parents_exact _ n _ _ _ (LMg g I) (ols (g_rows g)) (icpt (g_rows g)) (OLS g I) M (EXg g I) _ (ex_corr_ideal (g_rows g) n (g_e g)) i j). symmetry. apply (edge_g g j i I).
  Qed.
  Lemma elems_g : forall g, In g Gs -> forall i, elems n (P i) = elems n (Pg g i).
  Proof. intros g I i. unfold elems. apply filter_ext. intro j. apply (parents_g g I). Qed.
  Lemma joint_unconfounded : forall i j, rcd_confounded n co2 P i j = false.
  Proof.
    intros i j. destruct (rcd_confounded n co2 P i j) eqn:Q; [|reflexivity]. apply (confounded_iff n co2 (fun _ _ _ => 0%Qc) P) in Q. exfalso.
    assert (G : forall a b, shares n co2 P a b -> False).
    { intros a b (L & Lb & _ & C). apply co2_iff in C; [|lia|lia|apply elems_lt|apply elems_lt]. destruct C as (g & I & C). apply C. unfold YG.
      rewrite !(elems_g g I).
      pose proof (fun v Hv => proj1 (on_parents _ n _ _ _ (LMg g I) (ols (g_rows g)) (icpt (g_rows g)) (OLS g I) M (EXg g I) _ (ex_corr_ideal (g_rows g) n (g_e g)) v Hv)) as ON.
      rewrite (ON a ltac:(lia)), cov_sym, (ON b ltac:(lia)). apply (lm_uncorrelated _ _ _ _ _ (LMg g I)); lia. }
    destruct Q as [Q|Q]; exact (G _ _ Q).
  Qed.
  Lemma joint_adjacency : forall g i j, In g Gs -> i < n -> j < n ->
    rcd_adjacency n (fun i ps j => ols (g_rows g) (g_x g) ps (g_x g i) j) P (rcd_confounded n co2 P) i j = Some (g_B g i j).
  Proof.
    intros g i j I Hi Hj. unfold rcd_adjacency. rewrite joint_unconfounded.
    rewrite (elems_g g I i), (parents_g g I i j). destruct (Pg g i j) eqn:Q.
    - apply (parents_exact _ n _ _ _ (LMg g I) (ols (g_rows g)) (icpt (g_rows g)) (OLS g I) M (EXg g I) _ (ex_corr_ideal (g_rows g) n (g_e g)) i j) in Q.
      f_equal. apply (proj2 (on_parents _ n _ _ _ (LMg g I) (ols (g_rows g)) (icpt (g_rows g)) (OLS g I) M (EXg g I) _ (ex_corr_ideal (g_rows g) n (g_e g)) i Hi) j Q).
    - destruct (Qc_eq_dec (g_B g i j) 0) as [Z|Z]; [rewrite Z; reflexivity|]. assert (EQ : edge_of n (g_B g) j i) by (split; [exact Hi|split; [exact Hj|exact Z]]).
      apply (parents_exact _ n _ _ _ (LMg g I) (ols (g_rows g)) (icpt (g_rows g)) (OLS g I) M (EXg g I) _ (ex_corr_ideal (g_rows g) n (g_e g)) i j) in EQ. congruence.
  Qed.
End Joint.

Lemma mg_rcd_correct : forall n Gs ols icpt pshapiro ppearson phsic fcorr mlcoef m2log sf cor_alpha ind_alpha shapiro_alpha ind_corr kind maxl mlh,
  2 <= length Gs -> one_graph n Gs -> seen_somewhere n Gs ->
  (forall g, In g Gs -> solves_least_squares (g_rows g) (ols (g_rows g))) ->
  joint_normality n Gs (mg_nongauss_test pshapiro m2log sf shapiro_alpha) ->
  joint_correlation n Gs (mg_corr_test ppearson m2log sf cor_alpha) ->
  joint_independence n Gs (mg_ind_test phsic fcorr m2log sf ind_alpha ind_corr kind) ->
  maxl = 1 \/ maxl = 2 ->
  exists M As, mg_rcd_fit ols icpt pshapiro ppearson phsic fcorr mlcoef m2log sf cor_alpha ind_alpha shapiro_alpha ind_corr kind (map data_of Gs) n maxl mlh = Ok (M, As) /\
    (forall g, In g Gs -> forall i j, M i j = true <-> ancestor n (g_B g) j i) /\
    length As = length Gs /\
    (forall k g, nth_error Gs k = Some g -> exists A, nth_error As k = Some A /\ forall i j, i < n -> j < n -> A i j = Some (g_B g i j)).
Proof.
  intros n Gs ols icpt pshapiro ppearson phsic fcorr mlcoef m2log sf cor_alpha ind_alpha shapiro_alpha ind_corr kind maxl mlh L OG SS OLS JN JC JI ML.
  destruct Gs as [|g0 Gs'] eqn:EG; [cbn in L; lia|]. rewrite <- EG in *. assert (G0 : In g0 Gs) by (rewrite EG; left; reflexivity). clear EG Gs'.
  unfold mg_rcd_fit. replace (maxl =? 0) with false by (symmetry; apply Nat.eqb_neq; lia).
  replace (length (map data_of Gs) <? 2) with false by (symmetry; apply Nat.ltb_ge; rewrite map_length; exact L).
  set (ngt := mg_nongauss_test pshapiro m2log sf shapiro_alpha) in *. set (cot := mg_corr_test ppearson m2log sf cor_alpha) in *.
  set (int := mg_ind_test phsic fcorr m2log sf ind_alpha ind_corr kind) in *.
  change (mg_nongauss ols icpt pshapiro m2log sf shapiro_alpha (map data_of Gs)) with (ng Gs ols icpt ngt).
  change (mg_corr ols icpt ppearson m2log sf cor_alpha (map data_of Gs)) with (co Gs ols icpt cot).
  change (mg_cor2 ols icpt ppearson m2log sf cor_alpha (map data_of Gs)) with (co2 Gs ols icpt cot).
  change (mg_ols ols icpt phsic fcorr m2log sf ind_alpha ind_corr kind (map data_of Gs)) with (io Gs ols icpt int).
  change (mg_ml ols icpt phsic fcorr mlcoef m2log sf ind_alpha ind_corr kind (map data_of Gs)) with (im Gs ols icpt mlcoef int).
  destruct (ancestors_terminates n maxl mlh (ng Gs ols icpt ngt) (co Gs ols icpt cot) (io Gs ols icpt int) (im Gs ols icpt mlcoef int) ltac:(lia) (rcd_fuel n maxl)) as [M E]; [unfold rcd_fuel; apply Nat.log2_spec; lia|].
  rewrite E.
  pose proof (joint_search n Gs mlh OG SS ols icpt OLS mlcoef ngt cot int JC JI JN g0 G0 maxl (rcd_fuel n maxl) M ltac:(lia) ltac:(lia) E) as EX.
  eexists M, _. split; [reflexivity|]. split; [intros g I; exact (EXg n Gs OG g0 G0 M EX g I)|]. split; [rewrite !map_length; reflexivity|].
  intros k g K. rewrite map_map. rewrite nth_error_map, K. eexists. split; [reflexivity|]. intros i j Hi Hj.
  exact (joint_adjacency n Gs OG ols icpt OLS cot JC g0 G0 M EX g i j (nth_error_In _ _ K) Hi Hj).
Qed.
