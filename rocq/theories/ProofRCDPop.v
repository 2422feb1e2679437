(** * RCD on model data: algebra of residuals *)
From Coq Require Import List Arith Bool ZArith QArith Qcanon Lia Permutation Relations.
From Verif Require Import Prelude Spec Lib LibMat SpecPop SpecRCDPop ModelRCD ModelRCDPop ProofEffect ProofPop ProofPop2 ProofPop3.
From Verif Require ProofUtil.
Import ListNotations.
Open Scope nat_scope.

Lemma dag_ind : forall m B, acyclic (edge_of m B) -> forall P : nat -> Prop,
  (forall i, i < m -> (forall j, j < m -> B i j <> 0%Qc -> P j) -> P i) -> forall i, i < m -> P i.
Proof.
  intros m B A P HP. destruct (topo_exists (edge_of m B) m (edge_of_dec m B) A) as (l & OL & TL).
  assert (ND : NoDup l) by (apply (Permutation_NoDup (Permutation_sym OL)), seq_NoDup).
  assert (G : forall k i, nth_error l k = Some i -> i < m -> P i).
  { induction k as [k IH] using lt_wf_ind. intros i Hk Hi. apply HP; [exact Hi|]. intros j Hj Z.
    assert (PR : precedes l j i) by (apply TL; [exact Hj|exact Hi|split; [exact Hi|split; [exact Hj|exact Z]]]).
    apply precedes_nth in PR. destruct PR as (p & q & L & Hp & Hq).
    assert (q = k) as -> by (eapply (proj1 (NoDup_nth_error l) ND); [apply nth_error_Some; congruence|congruence]).
    apply (IH p L j Hp Hj). }
  intros i Hi. assert (I : In i l) by (apply (Permutation_in _ (Permutation_sym OL)), in_seq; lia).
  destruct (In_nth_error l i I) as [k Hk]. exact (G k i Hk Hi).
Qed.

(** ** Combinations of the errors *)
Section Comb.
  Variables (N m : nat) (e : nat -> sample).
  Notation comb := (combination N m e).
  Lemma comb_ext : forall y z, (forall r, r < N -> y r = z r) -> comb y -> comb z.
  Proof. intros y z E (a & c & H). exists a, c. intros r Hr. rewrite <- (E r Hr). apply H. exact Hr. Qed.
  Lemma comb_e : forall k, k < m -> comb (e k).
  Proof.
    intros k Hk. exists (fun j => if j =? k then 1%Qc else 0%Qc), 0%Qc. intros r Hr. rewrite (sumn_single m _ k Hk).
    - rewrite Nat.eqb_refl. ring.
    - intros i Hi Ni. destruct (Nat.eqb_spec i k); [contradiction|ring].
  Qed.
  Lemma comb_const : forall c, comb (fun _ => c).
  Proof. intro c. exists (fun _ => 0%Qc), c. intros r Hr. rewrite sumn_zero; [ring|]. intros. ring. Qed.
  Lemma comb_lin : forall a b y z, comb y -> comb z -> comb (fun r => a * y r + b * z r)%Qc.
  Proof.
    intros a b y z (u & c & H1) (v & d & H2). exists (fun k => a * u k + b * v k)%Qc, (a * c + b * d)%Qc. intros r Hr.
    rewrite (H1 r Hr), (H2 r Hr). rewrite (sumn_ext m (fun k => (a * u k + b * v k) * e k r)%Qc (fun k => a * (u k * e k r) + b * (v k * e k r))%Qc) by (intros; ring).
    rewrite (sumn_plus m (fun k => a * (u k * e k r))%Qc (fun k => b * (v k * e k r))%Qc), !sumn_scal. ring.
  Qed.
  Lemma comb_plus : forall y z, comb y -> comb z -> comb (fun r => y r + z r)%Qc.
  Proof. intros y z Hy Hz. apply (comb_ext (fun r => 1 * y r + 1 * z r)%Qc); [intros; ring|]. apply comb_lin; assumption. Qed.
  Lemma comb_minus : forall y z, comb y -> comb z -> comb (fun r => y r - z r)%Qc.
  Proof. intros y z Hy Hz. apply (comb_ext (fun r => 1 * y r + - (1) * z r)%Qc); [intros; ring|]. apply comb_lin; assumption. Qed.
  Lemma comb_sumf : forall ps (c : nat -> Qc) (y : nat -> sample), (forall p, In p ps -> c p = 0%Qc \/ comb (y p)) -> comb (fun r => sumf ps (fun p => c p * y p r)%Qc).
  Proof.
    induction ps as [|p ps IH]; intros c y H; [apply (comb_ext (fun _ => 0%Qc)); [intros; rewrite sumf_nil; reflexivity|apply comb_const]|].
    assert (T : comb (fun r => sumf ps (fun p => c p * y p r)%Qc)) by (apply IH; intros; apply H; right; assumption).
    destruct (H p (or_introl eq_refl)) as [Z|Z].
    - apply (comb_ext (fun r => sumf ps (fun p => c p * y p r)%Qc)); [|exact T]. intros r _. rewrite sumf_cons, Z. ring.
    - apply (comb_ext (fun r => c p * y p r + 1 * sumf ps (fun p => c p * y p r))%Qc); [intros r _; rewrite sumf_cons; ring|]. apply comb_lin; assumption.
  Qed.
  Hypothesis unc : forall i j, i < m -> j < m -> i <> j -> cov N (e i) (e j) = 0%Qc.
  (** Two combinations without a common error are uncorrelated. *)
  Lemma disjoint_cov : forall y z, comb y -> (forall k, k < m -> cov N y (e k) = 0%Qc \/ cov N z (e k) = 0%Qc) ->
    (forall k, k < m -> var N (e k) <> 0%Qc) -> cov N y z = 0%Qc.
  Proof.
    intros y z (a & c & H) D V.
    rewrite (cov_ext N y (fun r => sumn m (fun k => a k * e k r) + c)%Qc z z H (fun _ _ => eq_refl)).
    rewrite ProofUtil.cov_shift, cov_wsumn. apply sumn_zero. intros k Hk.
    assert (Q : cov N y (e k) = (a k * var N (e k))%Qc).
    { rewrite (cov_ext N y (fun r => sumn m (fun k => a k * e k r) + c)%Qc (e k) (e k) H (fun _ _ => eq_refl)).
      rewrite ProofUtil.cov_shift, cov_wsumn. rewrite (sumn_single m _ k Hk); [reflexivity|]. intros i Hi Ni. rewrite (unc i k Hi Hk Ni). ring. }
    destruct (D k Hk) as [Z|Z].
    - rewrite Q in Z. apply Qcmult_integral in Z. destruct Z as [Z|Z]; [rewrite Z; ring|contradiction (V k Hk)].
    - rewrite cov_sym, Z. ring.
  Qed.
End Comb.

Section Alg.
  Variables (N m : nat) (B : mat Qc) (e x : nat -> sample).
  Hypothesis LM : linear_model N m B e x.
  Notation comb := (combination N m e).
  Notation anc := (ancestor m B).
  Lemma anc_bound : forall j i, anc j i -> j < m /\ i < m.
  Proof. intros j i H. induction H as [a b (H1 & H2 & _)|a b c _ IH1 _ IH2]; [split; assumption|split; [apply IH1|apply IH2]]. Qed.
  Lemma anc_irrefl : forall i, ~ anc i i.
  Proof. exact (lm_acyclic _ _ _ _ _ LM). Qed.
  Lemma anc_trans : forall a b c, anc a b -> anc b c -> anc a c.
  Proof. intros a b c. apply t_trans. Qed.
  Lemma anc_asym : forall a b, anc a b -> ~ anc b a.
  Proof. intros a b H1 H2. apply (anc_irrefl a). exact (anc_trans _ _ _ H1 H2). Qed.
  Lemma anc_edge : forall i j, i < m -> j < m -> B i j <> 0%Qc -> anc j i.
  Proof. intros i j Hi Hj Z. apply t_step. split; [exact Hi|split; [exact Hj|exact Z]]. Qed.
  Lemma comb_x : forall i, i < m -> comb (x i).
  Proof.
    apply (dag_ind m B (lm_acyclic _ _ _ _ _ LM) (fun i => comb (x i))). intros i Hi IH.
    apply (comb_ext N m e (fun r => sumf (seq 0 m) (fun j => B i j * x j r) + e i r)%Qc); [intros r Hr; symmetry; apply (lm_equation _ _ _ _ _ LM i r Hi Hr)|].
    apply comb_plus; [|apply comb_e; exact Hi]. apply comb_sumf. intros j Hj. apply in_seq in Hj. destruct (Qc_eq_dec (B i j) 0) as [Z|Z]; [left; exact Z|right; apply IH; [lia|exact Z]].
  Qed.
  Lemma var_nz : forall k, k < m -> var N (e k) <> 0%Qc.
  Proof. intros k Hk Z. pose proof (lm_variance _ _ _ _ _ LM k Hk) as V. rewrite Z in V. discriminate. Qed.
  Lemma cov_split : forall i z, i < m -> cov N (x i) z = (sumn m (fun j => B i j * cov N (x j) z) + cov N (e i) z)%Qc.
  Proof.
    intros i z Hi. rewrite (cov_ext N (x i) (fun r => sumn m (fun j => B i j * x j r) + e i r)%Qc z z (fun r Hr => lm_equation _ _ _ _ _ LM i r Hi Hr) (fun _ _ => eq_refl)).
    rewrite cov_plus, cov_wsumn. reflexivity.
  Qed.
  Lemma load_nonanc : forall i k, i < m -> k < m -> k <> i -> ~ anc k i -> cov N (x i) (e k) = 0%Qc.
  Proof.
    intros i k Hi Hk. revert i Hi. apply (dag_ind m B (lm_acyclic _ _ _ _ _ LM) (fun i => k <> i -> ~ anc k i -> cov N (x i) (e k) = 0%Qc)).
    intros i Hi IH Nk NA. rewrite (cov_split i (e k) Hi), (lm_uncorrelated _ _ _ _ _ LM i k Hi Hk (not_eq_sym Nk)).
    rewrite sumn_zero; [ring|]. intros j Hj. destruct (Qc_eq_dec (B i j) 0) as [Z|Z]; [rewrite Z; ring|].
    pose proof (anc_edge i j Hi Hj Z) as AJ. rewrite (IH j Hj Z); [ring| |].
    - intros ->. contradiction.
    - intro Q. apply NA. exact (anc_trans _ _ _ Q AJ).
  Qed.
  Lemma load_self : forall i, i < m -> cov N (x i) (e i) = var N (e i).
  Proof.
    intros i Hi. rewrite (cov_split i (e i) Hi). rewrite sumn_zero; [unfold var; ring|]. intros j Hj.
    destruct (Qc_eq_dec (B i j) 0) as [Z|Z]; [rewrite Z; ring|]. pose proof (anc_edge i j Hi Hj Z) as AJ.
    rewrite (load_nonanc j i Hj Hi); [ring| |apply anc_asym; exact AJ]. intros ->. exact (anc_irrefl _ AJ).
  Qed.
  Lemma e_as_x : forall k z, k < m -> cov N z (e k) = (cov N z (x k) - sumn m (fun p => B k p * cov N z (x p)))%Qc.
  Proof.
    intros k z Hk. rewrite (cov_sym N z (e k)), (cov_sym N z (x k)), (cov_split k z Hk).
    rewrite (sumn_ext m (fun p => B k p * cov N z (x p))%Qc (fun p => B k p * cov N (x p) z)%Qc) by (intros; rewrite (cov_sym N z); reflexivity). ring.
  Qed.
  (** Variables satisfy no non-trivial linear relation. *)
  Lemma x_independent : forall b, (forall k, k < m -> cov N (fun r => sumn m (fun p => b p * x p r))%Qc (e k) = 0%Qc) -> forall k, k < m -> b k = 0%Qc.
  Proof.
    intros b H. destruct (topo_exists (edge_of m B) m (edge_of_dec m B) (lm_acyclic _ _ _ _ _ LM)) as (l & OL & TL).
    assert (ND : NoDup l) by (apply (Permutation_NoDup (Permutation_sym OL)), seq_NoDup).
    assert (BD : forall i, In i l <-> i < m) by (intro i; split; intro Q; [apply (Permutation_in _ OL), in_seq in Q; lia|apply (Permutation_in _ (Permutation_sym OL)), in_seq; lia]).
    assert (AP : forall a c, anc a c -> precedes l a c).
    { intros a c Q. induction Q as [a c (Q1 & Q2 & Q3)|a c d _ IH1 _ IH2]; [apply TL; [exact Q2|exact Q1|split; [exact Q1|split; [exact Q2|exact Q3]]]|exact (precedes_trans l _ _ _ ND IH1 IH2)]. }
    assert (G : forall l2 l1, l = l1 ++ l2 -> forall k, In k l2 -> b k = 0%Qc).
    { induction l2 as [|k l2 IH]; intros l1 E q Hq; [contradiction|].
      assert (E' : l = (l1 ++ [k]) ++ l2) by (rewrite E, <- app_assoc; reflexivity).
      destruct Hq as [<-|Hq]; [|apply (IH (l1 ++ [k]) E' q Hq)].
      assert (Hk : k < m) by (apply BD; rewrite E; apply in_app_iff; right; left; reflexivity).
      pose proof (H k Hk) as Q. rewrite cov_wsumn, (sumn_single m _ k Hk) in Q.
      - rewrite (load_self k Hk) in Q. apply Qcmult_integral in Q. destruct Q as [Q|Q]; [exact Q|contradiction (var_nz k Hk)].
      - intros i Hi Ni. assert (I : In i l) by (apply BD; exact Hi). rewrite E in I. apply in_app_iff in I. destruct I as [I|[I|I]]; [|congruence|].
        + rewrite (load_nonanc i k Hi Hk (not_eq_sym Ni)); [ring|]. intro A. apply AP in A. apply (precedes_asym l _ _ ND A). rewrite E. apply precedes_app_cross; [exact I|left; reflexivity].
        + rewrite (IH (l1 ++ [k]) E' i I). ring. }
    intros k Hk. apply (G l [] eq_refl). apply BD. exact Hk.
  Qed.

  (** ** Residuals given a set of variables *)
  Variables (ols : (nat -> sample) -> list nat -> sample -> nat -> Qc) (icpt : (nat -> sample) -> list nat -> sample -> Qc).
  Hypothesis OLS : solves_least_squares N ols.
  Notation Y := (resid_given ols icpt x).
  Lemma ols_resid_cov : forall y i ps z, cov N (ols_resid ols icpt y i ps) z = (cov N (y i) z - sumf ps (fun p => ols y ps (y i) p * cov N (y p) z))%Qc.
  Proof.
    intros y i ps z. unfold ols_resid. rewrite (cov_minus N (y i) (fun r => sumf ps (fun p => ols y ps (y i) p * y p r) + icpt y ps (y i))%Qc z).
    rewrite ProofUtil.cov_shift, cov_wsum. reflexivity.
  Qed.
  Lemma ols_resid_orth : forall y i ps q, NoDup ps -> In q ps -> cov N (ols_resid ols icpt y i ps) (y q) = 0%Qc.
  Proof.
    intros y i ps q ND Hq. rewrite <- (OLS y ps (y i) ND q Hq). rewrite ols_resid_cov.
    rewrite (cov_minus N (y i) (fun r => sumf ps (fun p => ols y ps (y i) p * y p r))%Qc (y q)), cov_wsum. reflexivity.
  Qed.
  Lemma ols_resid_comb : forall y i ps, comb (y i) -> (forall p, In p ps -> comb (y p)) -> comb (ols_resid ols icpt y i ps).
  Proof.
    intros y i ps Hi Hp. unfold ols_resid. apply comb_minus; [exact Hi|]. apply comb_plus; [|apply comb_const]. apply comb_sumf. intros p Ip. right. apply Hp. exact Ip.
  Qed.
  Lemma Y_cov : forall H i z, cov N (Y H i) z = (cov N (x i) z - sumf H (fun p => ols x H (x i) p * cov N (x p) z))%Qc.
  Proof. intros [|h H] i z; unfold resid_given; [rewrite sumf_nil; ring|apply ols_resid_cov]. Qed.
  Lemma Y_orth : forall H i q, NoDup H -> In q H -> cov N (Y H i) (x q) = 0%Qc.
  Proof. intros [|h H] i q ND Hq; [contradiction|]. unfold resid_given. apply ols_resid_orth; assumption. Qed.
  Lemma Y_comb : forall H i, i < m -> (forall h, In h H -> h < m) -> comb (Y H i).
  Proof. intros [|h H] i Hi HH; unfold resid_given; [apply comb_x; exact Hi|]. apply ols_resid_comb; [apply comb_x; exact Hi|]. intros p Hp. apply comb_x, HH, Hp. Qed.
  (** Regressing on ancestors of [j] does not change the contribution of the error of [j]. *)
  Lemma Y_load : forall H u j, j < m -> (forall h, In h H -> anc h j) -> cov N (Y H u) (e j) = cov N (x u) (e j).
  Proof.
    intros H u j Hj HH. rewrite Y_cov. rewrite sumf_zero; [ring|]. intros h Ih. pose proof (HH h Ih) as A. destruct (anc_bound _ _ A) as [L _].
    rewrite (load_nonanc h j L Hj); [ring| |apply anc_asym; exact A]. intros ->. exact (anc_irrefl _ A).
  Qed.
  (** Regressing on a set closed under parents removes exactly the errors of that set. *)
  Definition closed (H : list nat) : Prop := forall h p, In h H -> p < m -> B h p <> 0%Qc -> In p H.
  Lemma closed_anc : forall H, closed H -> forall a h, anc a h -> In h H -> In a H.
  Proof. intros H C a h A. induction A as [a b (H1 & H2 & H3)|a b c _ IH1 _ IH2]; intro I; [exact (C b a I H2 H3)|auto]. Qed.
  Lemma Y_closed_in : forall H u k, NoDup H -> (forall h, In h H -> h < m) -> closed H -> In k H -> cov N (Y H u) (e k) = 0%Qc.
  Proof.
    intros H u k ND HB C Hk. rewrite (e_as_x k _ (HB k Hk)), (Y_orth H u k ND Hk). rewrite sumn_zero; [ring|].
    intros p Hp. destruct (Qc_eq_dec (B k p) 0) as [Z|Z]; [rewrite Z; ring|]. rewrite (Y_orth H u p ND (C k p Hk Hp Z)). ring.
  Qed.
  Lemma Y_closed_out : forall H u k, (forall h, In h H -> h < m) -> closed H -> k < m -> ~ In k H -> cov N (Y H u) (e k) = cov N (x u) (e k).
  Proof.
    intros H u k HB C Hk NI. rewrite Y_cov. rewrite sumf_zero; [ring|]. intros h Ih.
    rewrite (load_nonanc h k (HB h Ih) Hk); [ring|intros ->; contradiction|]. intro A. apply NI. exact (closed_anc H C k h A Ih).
  Qed.
End Alg.
