(** * BottomUpParceLiNGAM on model data *)
From Coq Require Import List Arith Bool ZArith QArith Qcanon Lia Permutation Relations Sorted.
From Verif Require Import Prelude Spec Lib LibMat SpecPop SpecRCDPop SpecParce SpecParcePop ModelParce ModelParcePop ModelRCDPop ProofEffect ProofPop ProofPop2 ProofPop3 ProofRCDPop ProofRCDPop2 ProofRCDPop4 ProofParce ProofParce3 ProofParce4.
From Verif Require ProofUtil ModelDirect.
Import ListNotations.
Open Scope nat_scope.

Lemma cov_shift_r : forall N y (x : sample) b, cov N y (fun r => x r - b)%Qc = cov N y x.
Proof. intros. rewrite cov_sym, (cov_ext N _ (fun r => x r + - b)%Qc y y); [rewrite ProofUtil.cov_shift; apply cov_sym|intros; ring|reflexivity]. Qed.
Lemma cov_shift_l : forall N y (x : sample) b, cov N (fun r => x r - b)%Qc y = cov N x y.
Proof. intros. rewrite cov_sym, cov_shift_r. apply cov_sym. Qed.

Section Centre.
  Variables (N m : nat) (B : mat Qc) (e x : nat -> sample).
  Notation xc := (centred N x).
  Notation ec := (centred N e).
  Lemma centred_cov_l : forall (y : nat -> sample) i z, cov N (centred N y i) z = cov N (y i) z.
  Proof. intros. apply (cov_shift_l N z (y i)). Qed.
  Lemma centred_cov_r : forall (y : nat -> sample) i z, cov N z (centred N y i) = cov N z (y i).
  Proof. intros. apply (cov_shift_r N z (y i)). Qed.
  Lemma centred_model : linear_model N m B e x -> linear_model N m B ec xc.
  Proof.
    intro LM. constructor.
    - exact (lm_acyclic _ _ _ _ _ LM).
    - intros i r Hi Hr. unfold centred. rewrite (lm_equation _ _ _ _ _ LM i r Hi Hr).
      assert (MX : mean N (x i) = (sumn m (fun j => B i j * mean N (x j)) + mean N (e i))%Qc).
      { unfold mean. rewrite (sumn_ext N (x i) (fun r => sumn m (fun j => B i j * x j r) + e i r)%Qc) by (intros; apply (lm_equation _ _ _ _ _ LM); assumption).
        rewrite (sumn_plus N (fun r => sumn m (fun j => B i j * x j r))%Qc (e i)), (sumn_swap N m (fun r j => B i j * x j r)%Qc).
        rewrite (sumn_ext m (fun j => sumn N (fun r => B i j * x j r))%Qc (fun j => B i j * sumn N (x j))%Qc) by (intros; apply sumn_scal).
        rewrite (sumn_ext m (fun j => B i j * (sumn N (x j) / qn N))%Qc (fun j => (B i j * sumn N (x j)) * / qn N)%Qc) by (intros; unfold Qcdiv; ring).
        rewrite sumn_scal_r. unfold Qcdiv. ring. }
      rewrite MX. rewrite (sumn_ext m (fun j => B i j * (x j r - mean N (x j)))%Qc (fun j => B i j * x j r - B i j * mean N (x j))%Qc) by (intros; ring).
      rewrite (sumn_minus m (fun j => B i j * x j r)%Qc (fun j => B i j * mean N (x j))%Qc). ring.
    - intros i Hi. unfold var. rewrite centred_cov_l, centred_cov_r. exact (lm_variance _ _ _ _ _ LM i Hi).
    - intros i j Hi Hj D. rewrite centred_cov_l, centred_cov_r. exact (lm_uncorrelated _ _ _ _ _ LM i j Hi Hj D).
  Qed.
  Lemma centred_comb : forall y, combination N m ec y -> combination N m e y.
  Proof.
    intros y (a & c & H). exists a, (c - sumn m (fun k => a k * mean N (e k)))%Qc. intros r Hr. rewrite (H r Hr). unfold centred.
    rewrite (sumn_ext m (fun k => a k * (e k r - mean N (e k)))%Qc (fun k => a k * e k r - a k * mean N (e k))%Qc) by (intros; ring).
    rewrite (sumn_minus m (fun k => a k * e k r)%Qc (fun k => a k * mean N (e k))%Qc). ring.
  Qed.
  Lemma centred_share : forall y z, share_no_error N m ec y z <-> share_no_error N m e y z.
  Proof. intros y z. unfold share_no_error. split; intros H k Hk; specialize (H k Hk); rewrite !centred_cov_r in *; exact H. Qed.
  Lemma centred_cancel : no_cancelling N m B e x -> no_cancelling N m B ec xc.
  Proof. intros H j i A. rewrite centred_cov_l, centred_cov_r. apply H. exact A. Qed.
End Centre.

Lemma sumf_sub : forall m (f : nat -> Qc) G, NoDup G -> (forall g, In g G -> g < m) -> (forall q, q < m -> ~ In q G -> f q = 0%Qc) -> sumf G f = sumn m f.
Proof.
  intros m f G ND L Z. unfold sumn. rewrite (sumf_perm _ f (seq 0 m) (G ++ filter (fun q => negb (memb q G)) (seq 0 m))).
  - rewrite sumf_app, (sumf_zero _ f (filter (fun q => negb (memb q G)) (seq 0 m))); [ring|]. intros q Iq. apply filter_In in Iq. destruct Iq as [I1 I2]. apply in_seq in I1. apply Z; [lia|].
    intro C. apply memb_In in C. rewrite C in I2. discriminate.
  - apply NoDup_Permutation; [apply seq_NoDup| |].
    + apply NoDup_app_iff'. split; [exact ND|]. split; [apply NoDup_filter, seq_NoDup|]. intros q I1 I2. apply filter_In in I2. destruct I2 as [_ I2]. apply memb_In in I1. rewrite I1 in I2. discriminate.
    + intro q. rewrite in_app_iff, filter_In. split.
      * intro I. destruct (memb q G) eqn:Q; [left; apply memb_In; exact Q|right; split; [exact I|reflexivity]].
      * intros [I|[I _]]; [apply in_seq; specialize (L q I); lia|exact I].
Qed.

Section Sinks.
  Variables (N m : nat) (B : mat Qc) (e x : nat -> sample).
  Hypothesis LM : linear_model N m B e x.
  Notation anc := (ancestor m B).
  (** A combination of some variables without a contribution of their errors is trivial. *)
  Lemma sub_independent : forall U b, (forall k, In k U -> k < m) -> NoDup U -> (forall k, In k U -> b k = 0%Qc \/ sumf U (fun p => b p * cov N (x p) (e k))%Qc = 0%Qc) -> forall k, In k U -> b k = 0%Qc.
  Proof.
    intros U b HU ND H. destruct (topo_exists (edge_of m B) m (edge_of_dec m B) (lm_acyclic _ _ _ _ _ LM)) as (l & OL & TL).
    assert (NDl : NoDup l) by (apply (Permutation_NoDup (Permutation_sym OL)), seq_NoDup).
    assert (BD : forall i, In i l <-> i < m) by (intro i; split; intro Q; [apply (Permutation_in _ OL), in_seq in Q; lia|apply (Permutation_in _ (Permutation_sym OL)), in_seq; lia]).
    assert (AP : forall a c, anc a c -> precedes l a c).
    { intros a c Q. induction Q as [a c (Q1 & Q2 & Q3)|a c d _ IH1 _ IH2]; [apply TL; [exact Q2|exact Q1|split; [exact Q1|split; [exact Q2|exact Q3]]]|exact (precedes_trans l _ _ _ NDl IH1 IH2)]. }
    assert (G : forall l2 l1, l = l1 ++ l2 -> forall k, In k l2 -> In k U -> b k = 0%Qc).
    { induction l2 as [|k l2 IH]; intros l1 E q Hq Uq; [contradiction|].
      assert (E' : l = (l1 ++ [k]) ++ l2) by (rewrite E, <- app_assoc; reflexivity).
      destruct Hq as [<-|Hq]; [|apply (IH (l1 ++ [k]) E' q Hq Uq)].
      assert (Hk : k < m) by (apply HU; exact Uq).
      destruct (H k Uq) as [Z|Q]; [exact Z|].
      rewrite (sumf_split U k _ ND Uq) in Q. rewrite sumf_zero in Q.
      - assert (Q' : (b k * cov N (x k) (e k) = 0)%Qc) by (rewrite <- Q; ring). rewrite (load_self N m B e x LM k Hk) in Q'. apply Qcmult_integral in Q'. destruct Q' as [Q'|Q']; [exact Q'|contradiction (var_nz N m B e x LM k Hk)].
      - intros i Ii. apply remove_nat_In in Ii. destruct Ii as [Ui Ni]. pose proof (HU i Ui) as Hi. assert (I : In i l) by (apply BD; exact Hi). rewrite E in I. apply in_app_iff in I. destruct I as [I|[I|I]]; [|congruence|].
        + rewrite (load_nonanc N m B e x LM i k Hi Hk (not_eq_sym Ni)); [ring|]. intro A. apply AP in A. apply (precedes_asym l _ _ NDl A). rewrite E. apply precedes_app_cross; [exact I|left; reflexivity].
        + rewrite (IH (l1 ++ [k]) E' i I Ui). ring. }
    intros k Uk. apply (G l [] eq_refl); [apply BD, HU, Uk|exact Uk].
  Qed.
  (** A variable whose residual shares no error with the other variables of [U] causes none of them. *)
  Lemma accepted_no_effect : forall U j (c : nat -> Qc) R, (forall k, In k U -> k < m) -> NoDup U -> In j U -> no_cancelling N m B e x ->
    (forall z, cov N R z = (cov N (x j) z - sumf (remove_nat j U) (fun p => c p * cov N (x p) z))%Qc) ->
    (forall i, In i (remove_nat j U) -> share_no_error N m e (x i) R) -> forall i, In i U -> ~ anc j i.
  Proof.
    intros U j c R HU ND Hj NC RC SH i Hi A.
    assert (Dij : i <> j) by (intros ->; exact (anc_irrefl N m B e x LM j A)).
    assert (Ii : In i (remove_nat j U)) by (apply remove_nat_In; auto).
    set (b := fun p => if p =? j then 1%Qc else (- c p)%Qc).
    assert (BJ : b j = 1%Qc) by (unfold b; rewrite Nat.eqb_refl; reflexivity).
    assert (RZ : forall z, cov N R z = sumf U (fun p => b p * cov N (x p) z)%Qc).
    { intro z. rewrite RC, (sumf_split U j _ ND Hj), BJ.
      rewrite (sumf_ext _ (fun p => b p * cov N (x p) z)%Qc (fun p => - (1) * (c p * cov N (x p) z))%Qc (remove_nat j U)), sumf_scal; [ring|].
      intros p Ip. apply remove_nat_In in Ip. unfold b. destruct (Nat.eqb_spec p j); [tauto|ring]. }
    assert (Z : b j = 0%Qc); [|rewrite BJ in Z; discriminate].
    apply (sub_independent U b HU ND); [|exact Hj].
    intros k Hk. right. rewrite <- RZ. pose proof (HU k Hk) as Lk. destruct (Nat.eq_dec k j) as [->|D].
    - destruct (SH i Ii j Lk) as [Q|Q]; [|exact Q]. contradiction (NC j i A Q).
    - assert (Ik : In k (remove_nat j U)) by (apply remove_nat_In; auto). destruct (SH k Ik k Lk) as [Q|Q]; [|exact Q].
      rewrite (load_self N m B e x LM k Lk) in Q. contradiction (var_nz N m B e x LM k Lk Q).
  Qed.
  (** Inside an ancestral set a sink causes nothing. *)
  Lemma sink_no_effect : forall U j, ancestral m (edge_of m B) U -> sink_in (edge_of m B) U j -> forall i, In i U -> ~ anc j i.
  Proof.
    intros U j [HU CL] [Hj S] i Hi A.
    assert (CA : forall a b, anc a b -> In b U -> In a U).
    { intros a b Q. induction Q as [a b E|a b c _ IH1 _ IH2]; intro I; [apply (CL a b); [apply E|exact E|exact I]|auto]. }
    assert (G : exists k, edge_of m B j k /\ (k = i \/ anc k i)).
    { apply clos_trans_t1n in A. destruct A as [i E|k i E A]; [exists i; auto|]. exists k. split; [exact E|]. right. apply clos_t1n_trans. exact A. }
    destruct G as (k & E & [->|K]); [exact (S i Hi E)|]. exact (S k (CA k i K Hi) E).
  Qed.
End Sinks.

Section Unique.
  Variables (N m : nat) (B : mat Qc) (e x : nat -> sample).
  Hypothesis LM : linear_model N m B e x.
  (** Least-squares coefficients are those of any decomposition with an uncorrelated rest. *)
  Lemma ls_unique : forall i G c (b : nat -> Qc) u, i < m -> NoDup G -> (forall g, In g G -> g < m) -> least_squares N x (x i) G c ->
    (forall z, cov N (x i) z = (sumf G (fun p => b p * cov N (x p) z) + cov N u z)%Qc) -> (forall g, In g G -> cov N u (x g) = 0%Qc) ->
    forall p, In p G -> c p = b p.
  Proof.
    intros i G c b u Hi ND HG LS E O. set (D := (fun r => sumf G (fun p => (b p - c p) * x p r)%Qc) : sample).
    assert (CD : forall z, cov N D z = (cov N (fun r => x i r - sumf G (fun p => c p * x p r))%Qc z - cov N u z)%Qc).
    { intro z. unfold D. rewrite (cov_wsum N G (fun p => b p - c p)%Qc x z). rewrite cov_minus, (cov_wsum N G c x z), (E z).
      rewrite (sumf_ext _ (fun p => (b p - c p) * cov N (x p) z)%Qc (fun p => b p * cov N (x p) z - c p * cov N (x p) z)%Qc) by (intros; ring).
      rewrite sumf_minus. ring. }
    assert (V : var N D = 0%Qc).
    { unfold var. unfold D at 1. rewrite (cov_wsum N G (fun p => b p - c p)%Qc x D). apply sumf_zero. intros p Ip. rewrite (cov_sym N (x p) D), CD, (LS p Ip), (O p Ip). ring. }
    assert (Z : forall z, cov N D z = 0%Qc) by (intro z; apply var_zero; [exact (lm_rows N m B e x i LM Hi)|exact V]).
    intros p Ip. assert (Q : (b p - c p = 0)%Qc).
    { apply (sub_independent N m B e x LM G (fun p => b p - c p)%Qc HG ND); [|exact Ip]. intros k Ik. right. refine (eq_trans _ (Z (e k))).
      unfold D. rewrite (cov_wsum N G (fun p => b p - c p)%Qc x (e k)). reflexivity. }
    transitivity (b p - (b p - c p))%Qc; [ring|rewrite Q; ring].
  Qed.
  (** ... in particular the direct effects, if the regressors contain the direct causes and no effect. *)
  Lemma ls_direct : forall i G c, i < m -> NoDup G -> (forall g, In g G -> g < m /\ g <> i /\ ~ ancestor m B i g) ->
    (forall j, edge_of m B j i -> In j G) -> least_squares N x (x i) G c -> forall p, In p G -> c p = B i p.
  Proof.
    intros i G c Hi ND HG HP LS. apply (ls_unique i G c (B i) (e i) Hi ND (fun g Ig => proj1 (HG g Ig)) LS).
    - intro z. rewrite (cov_split N m B e x LM i z Hi). f_equal. symmetry. apply (sumf_sub m (fun p => B i p * cov N (x p) z)%Qc G ND).
      + intros g Ig. apply HG, Ig.
      + intros q Hq Nq. destruct (Qc_eq_dec (B i q) 0) as [Z|Z]; [rewrite Z; ring|]. contradiction Nq. apply HP. split; [exact Hi|split; [exact Hq|exact Z]].
    - intros g Ig. destruct (HG g Ig) as (L & D & NA). apply (e_orth_anc N m B e x LM i g Hi L D NA).
  Qed.
End Unique.
