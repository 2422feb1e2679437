(** * VARLiNGAM on data from a structural vector autoregression: proofs *)
From Coq Require Import List Arith Bool ZArith QArith Qcanon Lia Permutation Relations.
From Verif Require Import Prelude Spec Lib LibMat SpecDirect SpecPop SpecVarPop ModelDirect ProofDirect ProofDirect2 ModelTotal ProofEffect ProofPop ProofPop2 ProofPop3.
Import ListNotations.
Open Scope nat_scope.

Lemma past_sum_minus : forall n p X c d r, past_sum n p X (fun k j => c k j - d k j)%Qc r = (past_sum n p X c r - past_sum n p X d r)%Qc.
Proof.
  intros. unfold past_sum. rewrite <- sumn_minus. apply sumn_ext. intros k _. rewrite <- sumn_minus. apply sumn_ext. intros j _. ring.
Qed.
Lemma past_sum_ext : forall n p X c d r, (forall k j, k < p -> j < n -> c k j = d k j) -> past_sum n p X c r = past_sum n p X d r.
Proof. intros n p X c d r H. unfold past_sum. apply sumn_ext. intros k Hk. apply sumn_ext. intros j Hj. rewrite (H k j Hk Hj). reflexivity. Qed.
Lemma past_sum_dot : forall R n p X c (y : sample),
  sumn R (fun r => y r * past_sum n p X c r)%Qc = sumn p (fun k => sumn n (fun j => c k j * sumn R (fun r => y r * past p X k j r)))%Qc.
Proof.
  intros. unfold past_sum.
  rewrite (sumn_ext R _ (fun r => sumn p (fun k => sumn n (fun j => c k j * (y r * past p X k j r))))%Qc).
  - rewrite sumn_swap. apply sumn_ext. intros k _. rewrite sumn_swap. apply sumn_ext. intros j _. apply sumn_scal.
  - intros r _. rewrite <- sumn_scal. apply sumn_ext. intros k _. rewrite <- sumn_scal. apply sumn_ext. intros j _. ring.
Qed.
Lemma sumn_squares_zero : forall R (y : sample), sumn R (fun r => y r * y r)%Qc = 0%Qc -> forall r, r < R -> y r = 0%Qc.
Proof.
  intros R y H r Hr.
  assert (Q : (y r * y r)%Qc = 0%Qc) by (apply (sumf_nonneg_zero nat (fun r => y r * y r)%Qc (seq 0 R)); [intros; apply Qcsq_nonneg|exact H|apply in_seq; lia]).
  apply Qcmult_integral in Q. destruct Q; assumption.
Qed.
Lemma cov_mean0 : forall R (x y : sample), 0 < R -> mean R x = 0%Qc -> cov R x y = 0%Qc -> sumn R (fun r => x r * y r)%Qc = 0%Qc.
Proof.
  intros R x y HR M C. unfold cov in C. rewrite M in C.
  assert (S0 : sumn R x = 0%Qc). { unfold mean in M. transitivity (sumn R x / qn R * qn R)%Qc; [field; apply qn_nonzero; exact HR|rewrite M; ring]. }
  assert (Q : sumn R (fun r => (x r - 0) * (y r - mean R y))%Qc = 0%Qc).
  { transitivity (sumn R (fun r => (x r - 0) * (y r - mean R y)) / qn R * qn R)%Qc; [field; apply qn_nonzero; exact HR|rewrite C; ring]. }
  rewrite (sumn_ext R _ (fun r => x r * y r - x r * mean R y)%Qc) in Q by (intros; ring). rewrite sumn_minus, sumn_scal_r, S0 in Q. rewrite <- Q. ring.
Qed.

Section VAR.
  Variables (N n p : nat) (B : nat -> mat Qc) (e : nat -> sample) (X : nat -> nat -> Qc).
  Hypothesis VM : var_model N n p B e X.
  Variable M : nat -> mat Qc.
  Hypothesis OLS : var_least_squares N n p X M.
  Let R := N - p.
  Definition resid : nat -> sample := fun i r => (X (r + p)%nat i - past_sum n p X (fun k j => M k i j) r)%Qc.

  Lemma rows_pos : forall i, i < n -> 0 < R.
  Proof.
    intros i Hi. unfold R. destruct (N - p) as [|q] eqn:E; [|lia]. pose proof (vm_variance N n p B e X VM i Hi) as V. rewrite E in V. unfold var, cov in V.
    replace (sumn 0 (fun r => (e i r - mean 0 (e i)) * (e i r - mean 0 (e i))) / qn 0)%Qc with 0%Qc in V; [discriminate|].
    unfold sumn. cbn [seq]. rewrite sumf_nil. unfold Qcdiv. ring.
  Qed.
  (** (I - B0) times the residual, written with the errors. *)
  Lemma structural_resid : forall i r, i < n -> r < R ->
    (resid i r - sumn n (fun j => B 0%nat i j * resid j r))%Qc =
    (past_sum n p X (fun k j => B (k + 1)%nat i j - mmul n (msub midn (B 0%nat)) (M k) i j)%Qc r + e i r)%Qc.
  Proof.
    intros i r Hi Hr. unfold resid. rewrite (vm_equation N n p B e X VM r i Hi Hr). rewrite past_sum_minus.
    rewrite (sumn_ext n (fun j => B 0%nat i j * (X (r + p)%nat j - past_sum n p X (fun k l => M k j l) r))%Qc (fun j => B 0%nat i j * X (r + p)%nat j - B 0%nat i j * past_sum n p X (fun k l => M k j l) r)%Qc) by (intros; ring).
    rewrite (sumn_minus n (fun j => B 0%nat i j * X (r + p)%nat j)%Qc (fun j => B 0%nat i j * past_sum n p X (fun k l => M k j l) r)%Qc).
    assert (Q : past_sum n p X (fun k j => mmul n (msub midn (B 0%nat)) (M k) i j) r =
      (past_sum n p X (fun k j => M k i j) r - sumn n (fun j => B 0%nat i j * past_sum n p X (fun k l => M k j l) r))%Qc).
    { rewrite (past_sum_ext n p X _ (fun k j => M k i j - sumn n (fun l => B 0%nat i l * M k l j))%Qc).
      - rewrite past_sum_minus. f_equal. unfold past_sum.
        rewrite (sumn_ext n (fun j => B 0%nat i j * sumn p (fun k => sumn n (fun l => M k j l * past p X k l r)))%Qc
                   (fun j => sumn p (fun k => sumn n (fun l => B 0%nat i j * M k j l * past p X k l r)))%Qc).
        + rewrite (sumn_swap n p). apply sumn_ext. intros k Hk. rewrite (sumn_swap n n). apply sumn_ext. intros l Hl. rewrite <- sumn_scal_r. reflexivity.
        + intros j Hj. rewrite <- sumn_scal. apply sumn_ext. intros k Hk. rewrite <- sumn_scal. apply sumn_ext. intros l Hl. ring.
      - intros k j Hk Hj. unfold mmul, msub. rewrite (sumn_ext n _ (fun l => midn i l * M k l j - B 0%nat i l * M k l j)%Qc) by (intros; ring).
        rewrite (sumn_minus n (fun l => midn i l * M k l j)%Qc (fun l => B 0%nat i l * M k l j)%Qc). f_equal.
        rewrite (sumn_single n _ i Hi); [unfold midn; rewrite Nat.eqb_refl; ring|]. intros l Hl Nl. unfold midn. destruct (Nat.eqb_spec i l); [congruence|ring]. }
    rewrite Q. ring.
  Qed.
  Lemma resid_past : forall i k j, i < n -> k < p -> j < n -> sumn R (fun r => resid i r * past p X k j r)%Qc = 0%Qc.
  Proof. intros i k j Hi Hk Hj. apply (OLS i k j Hi Hk Hj). Qed.
  (** The autoregressive coefficients are those of the reduced form. *)
  Lemma lag_exact : forall i k j, i < n -> k < p -> j < n -> mmul n (msub midn (B 0%nat)) (M k) i j = B (k + 1) i j.
  Proof.
    intros i k j Hi Hk Hj. pose proof (rows_pos i Hi) as HR.
    set (d := fun k j => (B (k + 1)%nat i j - mmul n (msub midn (B 0%nat)) (M k) i j)%Qc).
    set (D := past_sum n p X d).
    assert (ED : forall r, r < R -> D r = (resid i r - sumn n (fun j => B 0%nat i j * resid j r) - e i r)%Qc)
      by (intros r Hr; rewrite (structural_resid i r Hi Hr); unfold D, d; ring).
    assert (O : forall k j, k < p -> j < n -> sumn R (fun r => D r * past p X k j r)%Qc = 0%Qc).
    { intros k' j' Hk' Hj'.
      rewrite (sumn_ext R _ (fun r => resid i r * past p X k' j' r - sumn n (fun l => B 0%nat i l * (resid l r * past p X k' j' r)) - e i r * past p X k' j' r)%Qc).
      - rewrite (sumn_minus R (fun r => resid i r * past p X k' j' r - sumn n (fun l => B 0%nat i l * (resid l r * past p X k' j' r)))%Qc (fun r => e i r * past p X k' j' r)%Qc).
        rewrite (sumn_minus R (fun r => resid i r * past p X k' j' r)%Qc (fun r => sumn n (fun l => B 0%nat i l * (resid l r * past p X k' j' r)))%Qc).
        rewrite (resid_past i k' j' Hi Hk' Hj').
        rewrite (cov_mean0 R (e i) (past p X k' j') HR (vm_mean N n p B e X VM i Hi) (vm_past N n p B e X VM i k' j' Hi Hk' Hj')).
        rewrite sumn_swap, sumn_zero; [ring|]. intros l Hl. rewrite sumn_scal, (resid_past l k' j' Hl Hk' Hj'). ring.
      - intros r Hr. rewrite (ED r Hr).
        rewrite (sumn_ext n (fun l => B 0%nat i l * (resid l r * past p X k' j' r))%Qc (fun l => B 0%nat i l * resid l r * past p X k' j' r)%Qc) by (intros; ring).
        rewrite sumn_scal_r. ring. }
    assert (Z : forall r, r < R -> D r = 0%Qc).
    { apply sumn_squares_zero. unfold D at 2. rewrite (past_sum_dot R n p X d D). apply sumn_zero. intros k' Hk'. apply sumn_zero. intros j' Hj'. rewrite (O k' j' Hk' Hj'). ring. }
    pose proof (vm_independent N n p B e X VM d 0%Qc Z k j Hk Hj) as Q. unfold d in Q.
    transitivity (B (k + 1)%nat i j - (B (k + 1)%nat i j - mmul n (msub midn (B 0%nat)) (M k) i j))%Qc; [ring|rewrite Q; ring].
  Qed.
  (** The residuals obey the instantaneous model. *)
  Lemma resid_model : linear_model R n (B 0) e resid.
  Proof.
    constructor.
    - apply (vm_acyclic N n p B e X VM).
    - intros i r Hi Hr. pose proof (structural_resid i r Hi Hr) as Q.
      rewrite (past_sum_ext n p X _ (fun _ _ => 0%Qc)) in Q.
      + assert (Z : past_sum n p X (fun _ _ => 0%Qc) r = 0%Qc) by (unfold past_sum; apply sumn_zero; intros k _; apply sumn_zero; intros j _; ring).
        rewrite Z in Q. transitivity (sumn n (fun j => B 0%nat i j * resid j r) + (resid i r - sumn n (fun j => B 0%nat i j * resid j r)))%Qc; [ring|rewrite Q; ring].
      + intros k j Hk Hj. rewrite (lag_exact i k j Hi Hk Hj). ring.
    - apply (vm_variance N n p B e X VM).
    - apply (vm_uncorrelated N n p B e X VM).
  Qed.
  (** ** The regression used for pruning *)
  Variable K : list nat.
  Hypothesis order : is_order n K.
  Hypothesis topo : topological (edge_of n (B 0)) K.
  Definition now (i : nat) : sample := fun r => X (r + p)%nat i.
  Lemma cov_past_sum : forall c z, cov R (past_sum n p X c) z = sumn p (fun k => sumn n (fun j => c k j * cov R (past p X k j) z))%Qc.
  Proof.
    intros c z. unfold past_sum. transitivity (sumn p (fun k => cov R (fun r => sumn n (fun j => c k j * past p X k j r))%Qc z)).
    - apply (cov_sumf nat R (seq 0 p) (fun k r => sumn n (fun j => c k j * past p X k j r))%Qc z).
    - apply sumn_ext. intros k _. apply cov_wsumn.
  Qed.
  Lemma cov_past_e : forall c i, i < n -> cov R (past_sum n p X c) (e i) = 0%Qc.
  Proof.
    intros c i Hi. rewrite cov_past_sum. apply sumn_zero. intros k Hk. apply sumn_zero. intros j Hj.
    rewrite cov_sym. unfold R. rewrite (vm_past N n p B e X VM i k j Hi Hk Hj). ring.
  Qed.
  Lemma cov_now_e : forall a i, i < n -> cov R (now a) (e i) = cov R (resid a) (e i).
  Proof.
    intros a i Hi. rewrite (cov_ext R (now a) (fun r => resid a r + past_sum n p X (fun k j => M k a j) r)%Qc (e i) (e i)).
    - rewrite cov_plus, (cov_past_e _ i Hi). ring.
    - intros r Hr. unfold now, resid. ring.
    - reflexivity.
  Qed.
  Lemma prune_exact : forall l1 i l2 (ca : nat -> Qc) (cl : nat -> nat -> Qc), K = l1 ++ i :: l2 ->
    (let res := fun r => (now i r - sumf l1 (fun a => ca a * now a r) - past_sum n p X cl r)%Qc in
     (forall a, In a l1 -> cov R res (now a) = 0%Qc) /\ (forall k j, k < p -> j < n -> cov R res (past p X k j) = 0%Qc)) ->
    (forall a, In a l1 -> ca a = B 0%nat i a) /\ (forall k j, k < p -> j < n -> cl k j = B (k + 1)%nat i j).
  Proof.
    intros l1 i l2 ca cl E LS. cbv zeta in LS. destruct LS as [LA LL].
    pose proof (fun q => proj1 (K_In 1 n (le_n 1) K order q)) as KI. pose proof (K_NoDup n K order) as ND.
    assert (Hi : i < n) by (apply KI; rewrite E; apply in_app_iff; right; left; reflexivity).
    pose proof (rows_pos i Hi) as HR. pose proof resid_model as LM.
    assert (R1 : forall a, In a l1 -> a < n) by (intros a Ha; apply KI; rewrite E; apply in_app_iff; left; exact Ha).
    set (da := fun a => (B 0%nat i a - ca a)%Qc). set (dl := fun k j => (B (k + 1)%nat i j - cl k j)%Qc).
    set (D := fun r => (sumf l1 (fun a => da a * now a r) + past_sum n p X dl r)%Qc).
    assert (RE : forall r, r < R -> (now i r - sumf l1 (fun a => ca a * now a r) - past_sum n p X cl r = D r + e i r)%Qc).
    { intros r Hr. unfold D, dl, da. rewrite past_sum_minus. unfold now. rewrite (vm_equation N n p B e X VM r i Hi Hr).
      rewrite (sumf_ext _ (fun a => (B 0%nat i a - ca a) * X (r + p)%nat a)%Qc (fun a => B 0%nat i a * X (r + p)%nat a - ca a * X (r + p)%nat a)%Qc) by (intros; ring).
      rewrite (sumf_minus _ (fun a => B 0%nat i a * X (r + p)%nat a)%Qc (fun a => ca a * X (r + p)%nat a)%Qc).
      assert (Q : sumn n (fun j => B 0%nat i j * X (r + p)%nat j)%Qc = sumf l1 (fun a => B 0%nat i a * X (r + p)%nat a)%Qc); [|rewrite Q; ring].
      assert (ND1 : NoDup l1) by (rewrite E in ND; apply NoDup_app_l in ND; exact ND).
      unfold sumn. rewrite <- (sumf_filter_zero _ (fun q => memb q l1) _ (seq 0 n)).
      - apply sumf_perm. apply NoDup_Permutation; [apply NoDup_filter, seq_NoDup|exact ND1|].
        intro q. rewrite filter_In, memb_In, in_seq. split; [intros [_ H]; exact H|intro H; split; [pose proof (R1 q H); lia|exact H]].
      - intros j Hj Hm. apply in_seq in Hj. destruct (Qc_eq_dec (B 0%nat i j) 0) as [Z|Z]; [rewrite Z; ring|].
        assert (T : In j l1) by (apply (B_prefix R n (B 0) HR K order topo l1 i l2 j E ltac:(lia) Z)). apply memb_In in T. congruence. }
    assert (EA : forall a, In a l1 -> cov R (e i) (now a) = 0%Qc).
    { intros a Ha. rewrite cov_sym, (cov_now_e a i Hi). apply (cov_x_e R n (B 0) e resid HR LM K order topo l1 (i :: l2) E a i Ha (or_introl eq_refl)). }
    assert (DA : forall a, In a l1 -> cov R D (now a) = 0%Qc).
    { intros a Ha. pose proof (LA a Ha) as L. rewrite (cov_ext R _ (fun r => D r + e i r)%Qc (now a) (now a) RE (fun _ _ => eq_refl)) in L.
      rewrite cov_plus, (EA a Ha) in L. rewrite <- L. ring. }
    assert (DL : forall k j, k < p -> j < n -> cov R D (past p X k j) = 0%Qc).
    { intros k j Hk Hj. pose proof (LL k j Hk Hj) as L. rewrite (cov_ext R _ (fun r => D r + e i r)%Qc (past p X k j) (past p X k j) RE (fun _ _ => eq_refl)) in L.
      rewrite cov_plus in L. unfold R in L at 2. rewrite (vm_past N n p B e X VM i k j Hi Hk Hj) in L. rewrite <- L. ring. }
    assert (VD : var R D = 0%Qc).
    { unfold var. unfold D at 1. rewrite cov_plus, cov_wsum, cov_past_sum. rewrite sumf_zero, sumn_zero; [ring| |].
      - intros k Hk. apply sumn_zero. intros j Hj. rewrite cov_sym, (DL k j Hk Hj). ring.
      - intros a Ha. rewrite cov_sym, (DA a Ha). ring. }
    assert (CD : forall z, cov R D z = 0%Qc) by (intro z; apply var_zero; assumption).
    assert (ZA : forall l3 l4, l1 = l3 ++ l4 -> forall a, In a l4 -> da a = 0%Qc).
    { intros l3 l4. revert l3. induction l4 as [|b l4 IH] using rev_ind; intros l3 E1 a Ha; [contradiction|].
      assert (Db : forall suf pre q, l1 = pre ++ q :: suf -> (forall a, In a suf -> da a = 0%Qc) -> da q = 0%Qc).
      { intros suf pre q Eq ZS. assert (Hq : q < n) by (apply R1; rewrite Eq; apply in_app_iff; right; left; reflexivity).
        pose proof (CD (e q)) as C. unfold D in C. rewrite cov_plus, (cov_past_e dl q Hq), cov_wsum, Eq, sumf_app, sumf_cons in C.
        rewrite (sumf_zero _ _ suf) in C by (intros a' Ha'; rewrite (ZS a' Ha'); ring).
        rewrite (sumf_zero _ _ pre) in C.
        - rewrite (cov_now_e q q Hq), (cov_x_e_self R n (B 0) e resid HR LM K order topo q Hq) in C.
          assert (Q : (da q * var R (e q) = 0)%Qc) by (rewrite <- C; ring). apply Qcmult_integral in Q. destruct Q as [Q|Q]; [exact Q|].
          pose proof (vm_variance N n p B e X VM q Hq) as V. unfold R in Q. rewrite Q in V. discriminate.
        - intros a' Ha'. rewrite (cov_now_e a' q Hq).
          rewrite (cov_x_e R n (B 0) e resid HR LM K order topo pre (q :: suf ++ i :: l2)) with (q := a'); [ring| |exact Ha'|left; reflexivity].
          rewrite E, Eq, <- app_assoc. reflexivity. }
      clear IH. revert l3 E1 a Ha. remember (l4 ++ [b]) as l5 eqn:E5. clear E5 l4 b. induction l5 as [|b l5 IH]; intros l3 E1 a Ha; [contradiction|].
      assert (T : forall a, In a l5 -> da a = 0%Qc) by (apply (IH (l3 ++ [b])); rewrite <- app_assoc; exact E1).
      destruct Ha as [<-|Ha]; [|apply T; exact Ha]. apply (Db l5 l3 b E1 T). }
    assert (ZA' : forall a, In a l1 -> da a = 0%Qc) by (apply (ZA [] l1 eq_refl)).
    split.
    - intros a Ha. pose proof (ZA' a Ha) as Q. unfold da in Q. transitivity (B 0%nat i a - (B 0%nat i a - ca a))%Qc; [ring|rewrite Q; ring].
    - intros k j Hk Hj.
      assert (CONST : forall r, r < R -> past_sum n p X dl r = mean R D).
      { intros r Hr. assert (Q : (D r - mean R D)%Qc = 0%Qc).
        { apply (sumn_squares_zero R (fun r => D r - mean R D)%Qc); [|exact Hr]. unfold var, cov in VD.
          transitivity (sumn R (fun r0 => (D r0 - mean R D) * (D r0 - mean R D)) / qn R * qn R)%Qc; [field; apply qn_nonzero; exact HR|rewrite VD; ring]. }
        assert (Q2 : D r = past_sum n p X dl r). { unfold D. rewrite sumf_zero; [ring|]. intros a Ha. rewrite (ZA' a Ha). ring. }
        rewrite <- Q2. transitivity (D r - mean R D + mean R D)%Qc; [ring|rewrite Q; ring]. }
      pose proof (vm_independent N n p B e X VM dl (mean R D) CONST k j Hk Hj) as Q. unfold dl in Q.
      transitivity (B (k + 1)%nat i j - (B (k + 1)%nat i j - cl k j))%Qc; [ring|rewrite Q; ring].
  Qed.
End VAR.
