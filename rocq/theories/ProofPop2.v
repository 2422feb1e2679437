(** * Correctness on data from a linear acyclic model: coefficients and total effects *)
From Coq Require Import List Arith Bool ZArith QArith Qcanon Lia Permutation Relations.
From Verif Require Import Prelude Spec Lib LibMat SpecDirect SpecPop ModelDirect ProofDirect ProofDirect2 ModelTotal ProofEffect ProofPop.
Import ListNotations.
Open Scope nat_scope.

Lemma cov_wsumn : forall N n (c : nat -> Qc) (x : nat -> sample) z,
  cov N (fun r => sumn n (fun p => c p * x p r))%Qc z = sumn n (fun p => c p * cov N (x p) z)%Qc.
Proof. intros. apply (cov_wsum N (seq 0 n) c x z). Qed.

Lemma NoDup_app_l : forall A (l1 l2 : list A), NoDup (l1 ++ l2) -> NoDup l1.
Proof. intros A l1 l2 H. apply NoDup_app_iff' in H. apply H. Qed.

Section Data.
  Variables (N n : nat) (B : mat Qc) (e x : nat -> sample).
  Hypothesis N_pos : 0 < N.
  Hypothesis M : linear_model N n B e x.
  Variable K : list nat.
  Hypothesis order : is_order n K.
  Hypothesis topo : topological (edge_of n B) K.

  Lemma K_NoDup : NoDup K.
  Proof. apply (Permutation_NoDup (Permutation_sym order)), seq_NoDup. Qed.
  Lemma K_In : forall i, In i K <-> i < n.
  Proof.
    intro i. split; intro H; [apply (Permutation_in _ order) in H; apply in_seq in H; lia|].
    apply (Permutation_in _ (Permutation_sym order)), in_seq. lia.
  Qed.
  Lemma cov_x_split : forall i z, i < n -> cov N (x i) z = (sumn n (fun j => B i j * cov N (x j) z) + cov N (e i) z)%Qc.
  Proof.
    intros i z Hi. rewrite <- cov_wsumn, <- cov_plus. apply cov_ext; [intros r Hr; apply (lm_equation N n B e x M i r Hi Hr)|intros; reflexivity].
  Qed.
  Lemma B_prefix : forall l1 q l2 j, K = l1 ++ q :: l2 -> j < n -> B q j <> 0%Qc -> In j l1.
  Proof.
    intros l1 q l2 j E Hj Nz.
    assert (P : precedes K j q). { apply topo. split; [apply K_In; rewrite E; apply in_app_iff; right; left; reflexivity|]. split; [exact Hj|exact Nz]. }
    pose proof K_NoDup as ND. rewrite E in P, ND. apply precedes_app_inv in P.
    apply NoDup_remove in ND. destruct ND as [ND Nq]. rewrite in_app_iff in Nq.
    destruct P as [P|[[P _]|P]].
    - apply precedes_In in P. tauto.
    - exact P.
    - exfalso. destruct P as (a & b & c & P). destruct a as [|a0 a]; injection P as P1 P2; apply Nq; right; rewrite P2, ?in_app_iff; cbn; auto.
      all: try (right; right; rewrite in_app_iff; right; left; reflexivity).
      all: try (apply in_app_iff; right; left; reflexivity).
  Qed.
  (** A variable is uncorrelated with the errors of the variables after it. *)
  Lemma cov_x_e : forall l1 r, K = l1 ++ r -> forall q i, In q l1 -> In i r -> cov N (x q) (e i) = 0%Qc.
  Proof.
    intro l1. induction l1 as [|q' l1 IH] using rev_ind; intros r E q i Hq Hi; [contradiction|].
    rewrite <- app_assoc in E. cbn in E. apply in_app_iff in Hq.
    assert (Hq' : q' < n) by (apply K_In; rewrite E; apply in_app_iff; right; left; reflexivity).
    assert (Hin : i < n) by (apply K_In; rewrite E; apply in_app_iff; right; right; exact Hi).
    destruct Hq as [Hq|[<-|[]]]; [apply (IH (q' :: r) E q i Hq); right; exact Hi|].
    rewrite (cov_x_split q' (e i) Hq'). rewrite (lm_uncorrelated N n B e x M q' i Hq' Hin).
    - rewrite sumn_zero; [ring|]. intros j Hj. destruct (Qc_eq_dec (B q' j) 0) as [Z|Z]; [rewrite Z; ring|].
      rewrite (IH (q' :: r) E j i (B_prefix l1 q' r j E Hj Z) (or_intror Hi)). ring.
    - intros ->. pose proof K_NoDup as ND. rewrite E in ND. apply NoDup_remove_2 in ND. apply ND, in_app_iff. right. exact Hi.
  Qed.
  Lemma cov_x_e_self : forall i, i < n -> cov N (x i) (e i) = var N (e i).
  Proof.
    intros i Hi. rewrite (cov_x_split i (e i) Hi). rewrite sumn_zero; [unfold var; ring|]. intros j Hj.
    destruct (Qc_eq_dec (B i j) 0) as [Z|Z]; [rewrite Z; ring|].
    assert (I : In i K) by (apply K_In; exact Hi). apply in_split in I. destruct I as (l1 & l2 & E).
    rewrite (cov_x_e l1 (i :: l2) E j i (B_prefix l1 i l2 j E Hj Z) (or_introl eq_refl)). ring.
  Qed.
  (** Distinct variables placed in the order by their errors: a combination of zero variance is trivial. *)
  Lemma combination_trivial : forall ps (d : nat -> Qc),
    (forall p, In p ps -> p < n) -> NoDup ps ->
    (forall l1 p l2 q, ps = l1 ++ p :: l2 -> In q l1 -> precedes K q p) ->
    (forall z, cov N (fun r => sumf ps (fun p => d p * x p r))%Qc z = 0%Qc) -> forall p, In p ps -> d p = 0%Qc.
  Proof.
    intros ps d R ND PR Z p Hp. revert p Hp. induction ps as [|p ps IH] using rev_ind; intros q Hq; [contradiction|].
    assert (Hp : p < n) by (apply R, in_app_iff; right; left; reflexivity).
    assert (D : d p = 0%Qc).
    { specialize (Z (e p)). rewrite cov_wsum, sumf_app, sumf_cons, sumf_nil in Z. rewrite (cov_x_e_self p Hp) in Z.
      rewrite sumf_zero in Z.
      - assert (Q : (d p * var N (e p) = 0)%Qc) by (rewrite <- Z; ring). apply Qcmult_integral in Q. destruct Q as [Q|Q]; [exact Q|].
        pose proof (lm_variance N n B e x M p Hp) as V. rewrite Q in V. discriminate.
      - intros j Hj. destruct (PR ps p [] j eq_refl Hj) as (l1 & l2 & l3 & E).
        rewrite (cov_x_e (l1 ++ j :: l2) (p :: l3)) with (q := j); [ring|rewrite E, <- app_assoc; reflexivity|apply in_app_iff; right; left; reflexivity|left; reflexivity]. }
    apply in_app_iff in Hq. destruct Hq as [Hq|[<-|[]]]; [|exact D].
    apply IH; [intros; apply R, in_app_iff; left; assumption|apply NoDup_app_l in ND; exact ND| | |exact Hq].
    - intros l1 a l2 b E Hb. apply (PR l1 a (l2 ++ [p]) b); [rewrite E, <- app_assoc; reflexivity|exact Hb].
    - intro z. rewrite <- (Z z). apply cov_ext; intros r Hr; [|reflexivity]. rewrite sumf_app, sumf_cons, sumf_nil, D. ring.
  Qed.
  (** Least squares on a set of earlier variables that contains the parents returns the coefficients. *)
  Lemma regression_exact : forall l1 i l2 ps c, K = l1 ++ i :: l2 -> NoDup ps -> (forall p, In p ps -> In p l1) ->
    (forall a p b q, ps = a ++ p :: b -> In q a -> precedes K q p) ->
    (forall j, In j l1 -> B i j <> 0%Qc -> In j ps) -> least_squares N x (x i) ps c -> forall p, In p ps -> c p = B i p.
  Proof.
    intros l1 i l2 ps c E ND Hps PR Hpar LS p Hp.
    assert (Hi : i < n) by (apply K_In; rewrite E; apply in_app_iff; right; left; reflexivity).
    assert (RP : forall q, In q ps -> q < n) by (intros q Hq; apply K_In; rewrite E; apply in_app_iff; left; apply Hps; exact Hq).
    assert (XI : forall r, r < N -> x i r = (sumf ps (fun q => B i q * x q r) + e i r)%Qc).
    { intros r Hr. rewrite (lm_equation N n B e x M i r Hi Hr). f_equal.
      unfold sumn. rewrite <- (sumf_filter_zero _ (fun q => memb q ps) _ (seq 0 n)).
      - apply sumf_perm. apply NoDup_Permutation; [apply NoDup_filter, seq_NoDup|exact ND|].
        intro q. rewrite filter_In, memb_In, in_seq. split; [intros [_ H]; exact H|intro H; split; [pose proof (RP q H); lia|exact H]].
      - intros j Hj Hm. apply in_seq in Hj. destruct (Qc_eq_dec (B i j) 0) as [Z|Z]; [rewrite Z; ring|].
        assert (T : In j ps) by (apply Hpar; [apply (B_prefix l1 i l2 j E ltac:(lia) Z)|exact Z]). apply memb_In in T. congruence. }
    set (d := fun q => (B i q - c q)%Qc).
    assert (ZQ : forall q, In q ps -> cov N (fun r => sumf ps (fun p => d p * x p r))%Qc (x q) = 0%Qc).
    { intros q Hq. pose proof (LS q Hq) as L.
      rewrite (cov_ext N _ (fun r => sumf ps (fun p => d p * x p r) + e i r)%Qc (x q) (x q)) in L.
      - rewrite cov_plus in L. rewrite (cov_sym N (e i) (x q)) in L. rewrite (cov_x_e l1 (i :: l2) E q i (Hps q Hq) (or_introl eq_refl)) in L. rewrite <- L. ring.
      - intros r Hr. rewrite (XI r Hr). unfold d. rewrite (sumf_ext _ (fun p0 => (B i p0 - c p0) * x p0 r)%Qc (fun p0 => B i p0 * x p0 r - c p0 * x p0 r)%Qc) by (intros; ring).
        rewrite (sumf_minus _ (fun p0 => B i p0 * x p0 r)%Qc (fun p0 => c p0 * x p0 r)%Qc). ring.
      - intros; reflexivity. }
    assert (V : var N (fun r => sumf ps (fun p => d p * x p r))%Qc = 0%Qc).
    { unfold var. rewrite cov_wsum. apply sumf_zero. intros q Hq. rewrite cov_sym, (ZQ q Hq). ring. }
    assert (D : d p = 0%Qc).
    { apply (combination_trivial ps d); [exact RP|exact ND|exact PR|intro z; apply var_zero; assumption|exact Hp]. }
    unfold d in D. transitivity (B i p - (B i p - c p))%Qc; [ring|rewrite D; ring].
  Qed.
  Lemma adjacency_exact : forall lasso pk,
    (forall m i j, pk = Some m -> m i j = Some 0%Qc -> B i j = 0%Qc) ->
    (forall ps i, i < n -> ~ In i ps -> (forall p, In p ps -> p < n) -> NoDup ps -> ps <> [] -> exists c, least_squares N x (x i) ps c /\ forall p, In p ps -> lasso ps i p = Some (c p)) ->
    forall i j, i < n -> j < n -> estimate_adjacency_matrix lasso pk K i j = Some (B i j).
  Proof.
    intros lasso pk PK LA i j Hi Hj. pose proof K_NoDup as ND.
    assert (I : In i K) by (apply K_In; exact Hi). apply in_split in I. destruct I as (l1 & l2 & E).
    rewrite (adjacency_row lasso pk K l1 i l2 j E ND). cbv zeta.
    assert (ND1 : NoDup l1) by (rewrite E in ND; apply NoDup_app_l in ND; exact ND).
    assert (NDp : NoDup (predictors_of pk i l1)) by (destruct pk; cbn; [apply NoDup_filter|]; exact ND1).
    assert (Par : forall q, In q l1 -> B i q <> 0%Qc -> In q (predictors_of pk i l1)).
    { intros q Hq Nz. apply predictors_of_In. split; [exact Hq|]. intros m ->. split; [|intro Z; apply Nz; apply (PK m i q eq_refl Z)].
      intros ->. rewrite E in ND. apply NoDup_remove_2 in ND. apply ND, in_app_iff. left. exact Hq. }
    destruct (memb j (predictors_of pk i l1)) eqn:Mj.
    - apply memb_In in Mj.
      destruct (LA (predictors_of pk i l1) i Hi) as (c & LS & C).
      + intro H. apply predictors_of_In in H. destruct H as [H _]. rewrite E in ND. apply NoDup_remove_2 in ND. apply ND, in_app_iff. left. exact H.
      + intros p Hp. apply predictors_of_In in Hp. apply K_In. rewrite E. apply in_app_iff. left. apply Hp.
      + exact NDp.
      + intro Z. rewrite Z in Mj. contradiction.
      + rewrite (C j Mj). f_equal. apply (regression_exact l1 i l2 (predictors_of pk i l1) c E NDp); try assumption.
        * intros p Hp. apply predictors_of_In in Hp. apply Hp.
        * assert (SUB : forall (f : nat -> bool) l a p b q, filter f l = a ++ p :: b -> In q a -> precedes l q p).
          { intros f l. induction l as [|y l IH]; intros a p b q Ef Hq; [destruct a; discriminate|]. cbn in Ef. destruct (f y).
            - destruct a as [|a0 a]; [contradiction|]. cbn in Ef. injection Ef as -> Ef. destruct Hq as [->|Hq].
              + assert (In p l). { assert (In p (filter f l)) as Q by (rewrite Ef; apply in_app_iff; right; left; reflexivity). apply filter_In in Q. apply Q. }
                apply (precedes_app_cross [q] l q p); [left; reflexivity|assumption].
              + apply (precedes_app_r l [a0]). apply (IH a p b q Ef Hq).
            - apply (precedes_app_r l [y]). apply (IH a p b q Ef Hq). }
          intros a p b q Ep Hq. rewrite E. apply precedes_app_l. destruct pk as [m|]; cbn in Ep.
          -- eapply SUB; eassumption.
          -- rewrite Ep. apply precedes_app_cross; [exact Hq|left; reflexivity].
    - destruct (Qc_eq_dec (B i j) 0) as [Z|Z]; [rewrite Z; reflexivity|]. exfalso.
      assert (T : In j (predictors_of pk i l1)) by (apply Par; [apply (B_prefix l1 i l2 j E Hj Z)|exact Z]). apply memb_In in T. congruence.
  Qed.
  (** ** Total effects *)
  Lemma x_Te : forall T i r, total_effects n B T -> i < n -> r < N -> x i r = sumn n (fun k => T i k * e k r)%Qc.
  Proof.
    intros T i r HT Hi Hr.
    rewrite (sumn_ext n (fun k => T i k * e k r)%Qc (fun k => T i k * x k r - sumn n (fun j => T i k * B k j * x j r))%Qc).
    - rewrite (sumn_minus n (fun k => T i k * x k r)%Qc (fun k => sumn n (fun j => T i k * B k j * x j r))%Qc), sumn_swap.
      rewrite <- (sumn_minus n (fun k => T i k * x k r)%Qc (fun j => sumn n (fun k => T i k * B k j * x j r))%Qc).
      rewrite (sumn_ext n _ (fun j => midn i j * x j r)%Qc).
      + rewrite (sumn_single n _ i Hi); [unfold midn; rewrite Nat.eqb_refl; ring|]. intros j Hj Nj. unfold midn. destruct (Nat.eqb_spec i j); [congruence|ring].
      + intros j Hj. rewrite sumn_scal_r. rewrite <- (HT i j Hi Hj). unfold mmul, msub.
        rewrite (sumn_ext n (fun k => T i k * (midn k j - B k j))%Qc (fun k => T i k * midn k j - T i k * B k j)%Qc) by (intros; ring).
        rewrite (sumn_minus n (fun k => T i k * midn k j)%Qc (fun k => T i k * B k j)%Qc). rewrite (sumn_single n (fun k => T i k * midn k j)%Qc j Hj).
        * unfold midn. rewrite Nat.eqb_refl. ring.
        * intros k Hk Nk. unfold midn. destruct (Nat.eqb_spec k j); [congruence|ring].
    - intros k Hk. rewrite (sumn_ext n (fun j => T i k * B k j * x j r)%Qc (fun j => T i k * (B k j * x j r))%Qc) by (intros; ring).
      rewrite sumn_scal. assert (Q : e k r = (x k r - sumn n (fun j => B k j * x j r))%Qc) by (rewrite (lm_equation N n B e x M k r Hk Hr); ring). rewrite Q. ring.
  Qed.
  Lemma cov_x_e_total : forall T i f, total_effects n B T -> i < n -> f < n -> cov N (x i) (e f) = (T i f * var N (e f))%Qc.
  Proof.
    intros T i f HT Hi Hf. rewrite (cov_ext N _ (fun r => sumn n (fun k => T i k * e k r))%Qc _ (e f)); [|intros r Hr; apply x_Te; assumption|intros; reflexivity].
    rewrite cov_wsumn. rewrite (sumn_single n _ f Hf); [reflexivity|]. intros k Hk Nk. rewrite (lm_uncorrelated N n B e x M k f Hk Hf Nk). ring.
  Qed.
  Lemma total_exact : forall T from to_ ps c, total_effects n B T -> from < n -> to_ < n ->
    NoDup ps -> (forall p, In p ps -> precedes K p from) -> (forall j, j < n -> B from j <> 0%Qc -> In j ps) ->
    least_squares N x (x to_) (from :: ps) c -> c from = T to_ from.
  Proof.
    intros T f t ps c HT Hf Ht ND Hps Hpar LS.
    assert (V : var N (e f) <> 0%Qc) by (intro Z; pose proof (lm_variance N n B e x M f Hf) as Q; rewrite Z in Q; discriminate).
    set (res := (fun r => x t r - sumf (f :: ps) (fun p => c p * x p r))%Qc).
    assert (LS' : forall q, In q (f :: ps) -> cov N res (x q) = 0%Qc) by exact LS.
    assert (RP : forall q, In q ps -> q < n) by (intros q Hq; apply K_In; apply (precedes_In K q f (Hps q Hq))).
    assert (EF : forall r, r < N -> e f r = (x f r - sumf ps (fun q => B f q * x q r))%Qc).
    { intros r Hr. rewrite (lm_equation N n B e x M f r Hf Hr).
      assert (Q : sumn n (fun j => B f j * x j r)%Qc = sumf ps (fun q => B f q * x q r)%Qc); [|rewrite Q; ring].
      unfold sumn. rewrite <- (sumf_filter_zero _ (fun q => memb q ps) _ (seq 0 n)).
      - apply sumf_perm. apply NoDup_Permutation; [apply NoDup_filter, seq_NoDup|exact ND|].
        intro q. rewrite filter_In, memb_In, in_seq. split; [intros [_ H]; exact H|intro H; split; [pose proof (RP q H); lia|exact H]].
      - intros j Hj Hm. apply in_seq in Hj. destruct (Qc_eq_dec (B f j) 0) as [Z|Z]; [rewrite Z; ring|].
        assert (I : In j ps) by (apply Hpar; [lia|exact Z]). apply memb_In in I. congruence. }
    assert (R : cov N (e f) res = 0%Qc).
    { rewrite (cov_ext N _ (fun r => x f r - sumf ps (fun q => B f q * x q r))%Qc _ res EF (fun _ _ => eq_refl)).
      rewrite (cov_minus N (x f) (fun r => sumf ps (fun q => B f q * x q r))%Qc), cov_wsum. rewrite (cov_sym N (x f)), (LS' f (or_introl eq_refl)).
      rewrite sumf_zero; [ring|]. intros q Hq. rewrite cov_sym, (LS' q (or_intror Hq)). ring. }
    rewrite cov_sym in R. unfold res in R. rewrite (cov_minus N (x t) (fun r => sumf (f :: ps) (fun p => c p * x p r))%Qc), cov_wsum, sumf_cons in R.
    rewrite (cov_x_e_total T t f HT Ht Hf), (cov_x_e_self f Hf) in R. rewrite sumf_zero in R.
    - assert (Q : ((T t f - c f) * var N (e f) = 0)%Qc) by (rewrite <- R; ring). apply Qcmult_integral in Q. destruct Q as [Q|Q]; [|contradiction].
      transitivity (T t f - (T t f - c f))%Qc; [ring|rewrite Q; ring].
    - intros q Hq. destruct (Hps q Hq) as (l1 & l2 & l3 & E).
      rewrite (cov_x_e (l1 ++ q :: l2) (f :: l3)) with (q := q); [ring|rewrite E, <- app_assoc; reflexivity|apply in_app_iff; right; left; reflexivity|left; reflexivity].
  Qed.
End Data.
